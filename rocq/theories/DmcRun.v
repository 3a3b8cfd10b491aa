(** Proofs about DMC: the loop over the sets. *)
From Coq Require Import QArith Qcanon Sorted Permutation.
From Verif Require Import Base Values GmView GmViewSpec ShapeSpec ShapeProofs GmViewProofs GmViewProps ConstraintModel DualDecompModel DualDecompSpec DualDecompProofs FmProps DmcModel DmcSpec DmcProofs DmcSub.
From Verif Require LprProofs AStarSearch DualDecompConv PartitionProofs.
Open Scope nat_scope.

Section Run.
Variable gm : gmv Qc.
Variable solve : gmv Qc -> outcome (list nat).
Hypothesis MC : multicut gm.
Hypothesis SL : dm_labels solve.
Variable comp : nat -> nat.
Variable K : nat.
Notation n := (length (v_labels gm)).
Notation F := (length (v_factors gm)).
Notation ia := (ia gm). Notation ja := (ja gm). Notation wt := (wt gm).
Notation scls := (scls gm comp). Notation inside := (inside gm comp). Notation cutc := (cutc gm).
Hypothesis CL : forall v, v < n -> comp v < K.
Definition off (k : nat) : nat := length (filter (fun v => comp v <? k) (seq 0 n)).
Lemma off_S : forall k, off (S k) = off k + length (scls k).
Proof.
  intros k. unfold off, DmcSub.scls. generalize (seq 0 n). induction l as [|v l IH]; [reflexivity|]. cbn [filter].
  destruct (Nat.ltb_spec (comp v) (S k)), (Nat.ltb_spec (comp v) k), (Nat.eqb_spec (comp v) k); cbn [length]; lia.
Qed.
Lemma off_mono : forall j k, j <= k -> off j <= off k.
Proof. intros j k H. induction H; [lia|]. rewrite off_S. lia. Qed.
Lemma off_le : forall k, off k <= n.
Proof. intros k. unfold off. rewrite <- (seq_length n 0) at 2. generalize (seq 0 n). induction l as [|v l IH]; cbn [filter length]; [lia|]. destruct (comp v <? k); cbn [length]; lia. Qed.

Lemma nodup_at : forall (l : list nat) i j, NoDup l -> i < length l -> j < length l -> nth i l 0 = nth j l 0 -> i = j.
Proof. intros l i j ND H1 H2 E. exact (proj1 (NoDup_nth l 0) ND i j H1 H2 E). Qed.
(** writing at the variables of a set *)
Lemma write_ok : forall (h : nat -> nat) (g : nat -> outcome nat) vars arg, NoDup vars -> Forall (fun v => v < length arg) vars -> (forall l, l < length vars -> g l = Ret (h l)) ->
  exists arg', foldM (fun arg lvi => gvi <- rd vars lvi ;; x <- g lvi ;; wr arg gvi x) (seq 0 (length vars)) arg = Ret arg' /\ length arg' = length arg /\
    (forall l, l < length vars -> nth (nth l vars 0) arg' 0 = h l) /\ (forall v, ~ In v vars -> nth v arg' 0 = nth v arg 0).
Proof.
  intros h g vars arg ND FV HG. destruct (foldM_upto _ (fun arg lvi => gvi <- rd vars lvi ;; x <- g lvi ;; wr arg gvi x)
    (fun m a => length a = length arg /\ (forall l, l < m -> nth (nth l vars 0) a 0 = h l) /\ (forall v, ~ In v vars -> nth v a 0 = nth v arg 0)) (length vars) arg) as (a & E & H).
  - split; [reflexivity|]. split; [intros l H; lia|reflexivity].
  - intros k a Hk (A & B & C). rewrite (rd_nth _ vars _ 0) by exact Hk. cbn [bind]. rewrite HG by exact Hk. cbn [bind]. assert (I : In (nth k vars 0) vars) by (apply nth_In; exact Hk).
    rewrite Forall_forall in FV. pose proof (FV _ I) as LV. rewrite wr_Ret by lia. eexists. split; [reflexivity|]. split; [rewrite len_upd; exact A|]. split.
    + intros l Hl. destruct (Nat.eq_dec l k) as [->|NE]; [apply nth_upd_eq; lia|]. rewrite nth_upd_neq; [apply B; lia|]. intros X. apply NE. symmetry. eapply nodup_at; [exact ND|exact Hk|lia|exact X].
    + intros v NI. rewrite nth_upd_neq; [apply C; exact NI|]. intros X. apply NI. rewrite <- X. exact I.
  - exists a. split; [exact E|exact H].
Qed.

Definition marks (k : nat) (used : list bool) : Prop := forall f, f < F -> (comp (ia f) <> comp (ja f) -> nth f used false = true) /\ (comp (ia f) = comp (ja f) -> k <= comp (ia f) -> nth f used false = false).
Definition pair_ok (k : nat) : Prop := length (scls k) = 2 -> forall f, f < F -> inside k f = true -> (0 <= wt f)%Qc.
Definition good (k : nat) (arg : list nat) : Prop := dm_exact solve -> pair_ok k -> forall y, (qsum (cutc arg) (filter (inside k) (seq 0 F)) <= qsum (cutc y) (filter (inside k) (seq 0 F)))%Qc.
Lemma inside_In : forall k f, In f (filter (inside k) (seq 0 F)) -> f < F /\ ia f < ja f < n /\ comp (ia f) = k /\ comp (ja f) = k.
Proof. intros k f I. apply filter_In in I. destruct I as [I1 I2]. apply in_seq in I1. unfold DmcSub.inside in I2. apply andb_true_iff in I2. rewrite !Nat.eqb_eq in I2. split; [lia|]. destruct (fac_ok gm MC f) as (_ & L & _); [lia|]. auto. Qed.
Lemma good_ext : forall k a b, (forall v, v < n -> comp v = k -> nth v b 0 = nth v a 0) -> good k a -> good k b.
Proof.
  intros k a b H G X P y. replace (qsum (cutc b) (filter (inside k) (seq 0 F))) with (qsum (cutc a) (filter (inside k) (seq 0 F))); [apply G; assumption|].
  apply qsum_ext. intros f I. destruct (inside_In k f I) as (_ & L & C1 & C2). unfold DmcSub.cutc. rewrite !H by (assumption || lia). reflexivity.
Qed.
(** one label for a set of at most two variables *)
Lemma small_good : forall k arg o, length (scls k) <= 2 -> (forall v, v < n -> comp v = k -> nth v arg 0 = o) -> good k arg.
Proof.
  intros k arg o LE H _ P y. rewrite (qsum_zero _ (cutc arg)).
  - apply DualDecompConv.qsum_pos. intros f I. pose proof I as I'. apply filter_In in I'. destruct I' as [_ I']. destruct (inside_In k f I) as (Hf & L & C1 & C2). unfold DmcSub.cutc. destruct (_ =? _); [apply Qcle_refl|].
    apply P; [|exact Hf|exact I']. assert (A : In (ia f) (scls k)) by (apply scls_In; lia). assert (B : In (ja f) (scls k)) by (apply scls_In; lia).
    destruct (scls k) as [|v1 [|v2 vs]]; [destruct A|destruct A as [A|[]]; destruct B as [B|[]]; lia|]. cbn [length] in *. lia.
  - intros f I. destruct (inside_In k f I) as (_ & L & C1 & C2). unfold DmcSub.cutc. rewrite !H by (assumption || lia). rewrite Nat.eqb_refl. reflexivity.
Qed.
Lemma marks_S : forall k used, marks k used -> marks (S k) used.
Proof. intros k used H f Hf. destruct (H f Hf) as [A B]. split; [exact A|]. intros E L. apply B; [exact E|lia]. Qed.

Lemma sub_ok : forall k arg used g2l o, length arg = n -> length used = F -> length g2l = n -> marks k used ->
  exists arg' used' g2l', dm_sub gm solve (arg, used, g2l, o) (scls k) = Ret (arg', used', g2l', o + length (scls k)) /\ length arg' = n /\ length used' = F /\ length g2l' = n /\ marks (S k) used' /\
    (forall v, v < n -> comp v <> k -> nth v arg' 0 = nth v arg 0) /\ (forall v, v < n -> comp v = k -> o <= nth v arg' 0 < o + length (scls k)) /\ good k arg'.
Proof.
  intros k arg used g2l o LA LU LG MK. unfold dm_sub.
  assert (FV : forall (l : list nat), length l = n -> Forall (fun v => v < length l) (scls k)) by (intros l E; apply Forall_forall; intros v I; apply scls_In in I; lia).
  destruct (write_ok (fun l => l) (fun l => Ret l) (scls k) g2l (scls_NoDup gm comp k) (FV g2l LG)) as (g2l' & EG & LG' & HG & _); [reflexivity|].
  replace (foldM (fun g2l lvi => gvi <- rd (scls k) lvi ;; wr g2l gvi lvi) (seq 0 (length (scls k))) g2l) with (Ret g2l') by (symmetry; exact EG). cbn [bind].
  rewrite LG in LG'.
  destruct (Nat.eqb_spec (length (scls k)) 1) as [E1|E1]; [|destruct (Nat.eqb_spec (length (scls k)) 2) as [E2|E2]].
  - destruct (scls k) as [|v0 [|]] eqn:EC; try discriminate E1. assert (IV : forall v, v < n /\ comp v = k <-> v = v0) by (intros v; rewrite <- scls_In, EC; cbn; intuition).
    destruct (proj2 (IV v0) eq_refl) as [V1 V2]. change (rd [v0] 0) with (Ret v0). cbn [bind]. rewrite wr_Ret by lia. cbn [bind]. exists (upd arg v0 o), used, g2l'. split; [reflexivity|]. split; [rewrite len_upd; exact LA|]. split; [exact LU|]. split; [exact LG'|].
    split; [apply marks_S; exact MK|]. assert (HV : forall v, v < n -> comp v = k -> nth v (upd arg v0 o) 0 = o) by (intros v H C; replace v with v0 by (symmetry; apply IV; auto); apply nth_upd_eq; lia).
    split; [intros v H C; apply nth_upd_neq; intros ->; auto|]. split; [intros v H C; rewrite HV by assumption; cbn; lia|]. apply (small_good k _ o); [rewrite EC; cbn; lia|exact HV].
  - destruct (scls k) as [|v0 [|v1 [|]]] eqn:EC; try discriminate E2. assert (IV : forall v, v < n /\ comp v = k <-> v = v0 \/ v = v1) by (intros v; rewrite <- scls_In, EC; cbn; intuition).
    destruct (proj2 (IV v0) (or_introl eq_refl)) as [V1 V2]. destruct (proj2 (IV v1) (or_intror eq_refl)) as [V3 V4]. change (rd [v0; v1] 0) with (Ret v0). change (rd [v0; v1] 1) with (Ret v1). cbn [bind]. rewrite wr_Ret by lia. cbn [bind]. rewrite wr_Ret by (rewrite len_upd; lia). cbn [bind].
    exists (upd (upd arg v0 o) v1 o), used, g2l'. split; [reflexivity|]. split; [rewrite !len_upd; exact LA|]. split; [exact LU|]. split; [exact LG'|]. split; [apply marks_S; exact MK|].
    assert (HV : forall v, v < n -> comp v = k -> nth v (upd (upd arg v0 o) v1 o) 0 = o).
    { intros v H C. destruct (Nat.eq_dec v1 v) as [<-|NE]; [apply nth_upd_eq; rewrite len_upd; lia|]. rewrite nth_upd_neq by exact NE. replace v with v0 by (destruct (proj1 (IV v) (conj H C)); congruence). apply nth_upd_eq. lia. }
    split; [intros v H C; rewrite !nth_upd_neq by (intros ->; auto); reflexivity|]. split; [intros v H C; rewrite HV by assumption; cbn; lia|]. apply (small_good k _ o); [rewrite EC; cbn; lia|exact HV].
  - destruct (subModel_ok gm MC comp k g2l' LG' HG used LU) as (used' & L & EM & LU' & PL & HU).
    { intros f Hf. destruct (MK f Hf) as [A B]. split; [exact A|]. intros I. unfold DmcSub.inside in I. apply andb_true_iff in I. rewrite !Nat.eqb_eq in I. apply B; lia. }
    rewrite EM. cbn [bind]. pose proof (sub_multicut gm MC comp k g2l' LG' HG L PL) as MS. destruct (SL _ MS) as (sa & ES & LS). rewrite ES. cbn [bind].
    pose proof (in_shape_length _ _ LS) as LN. cbn [v_labels] in LN. rewrite repeat_length in LN.
    assert (SB : forall l, l < length (scls k) -> nth l sa 0 < length (scls k)). { intros l H. pose proof (LprProofs.in_shape_at _ _ l LS) as X. cbn [v_labels] in X. rewrite repeat_length, nth_const in X by exact H. auto. }
    destruct (write_ok (fun l => nth l sa 0 + o) (fun l => x <- rd sa l ;; Ret (x + o)) (scls k) arg (scls_NoDup gm comp k) (FV arg LA)) as (arg' & EA & LA' & HA & HO).
    { intros l H. rewrite (rd_nth _ sa _ 0) by lia. reflexivity. }
    replace (foldM (fun arg lvi => gvi <- rd (scls k) lvi ;; l <- rd sa lvi ;; wr arg gvi (l + o)) (seq 0 (length (scls k))) arg) with (Ret arg').
    2: { rewrite <- EA. clear. generalize (seq 0 (length (scls k))). intros l. revert arg. induction l as [|a l IH]; intros arg; cbn [foldM]; [reflexivity|]. destruct (rd (scls k) a); cbn [bind]; try reflexivity. destruct (rd sa a); cbn [bind]; try reflexivity. destruct (wr arg _ _); cbn [bind]; try reflexivity. apply IH. }
    cbn [bind]. exists arg', used', g2l'. split; [reflexivity|]. split; [congruence|]. split; [exact LU'|]. split; [exact LG'|]. split.
    { intros f Hf. destruct (MK f Hf) as [A B]. split; [intros X; apply HU; [exact Hf|left; apply A; exact X]|]. intros E LE. destruct (nth f used' false) eqn:U; [|reflexivity]. apply HU in U; [|exact Hf]. rewrite (B E) in U by lia. destruct U as [U|U]; [discriminate U|lia]. }
    assert (HV : forall v, v < n -> comp v = k -> nth v arg' 0 = nth (nth v g2l' 0) sa 0 + o).
    { intros v H C. destruct (g2l_lt gm comp k g2l' HG v H C) as [A B]. rewrite <- B at 1. apply HA. exact A. }
    split; [intros v H C; apply HO; intros I; apply scls_In in I; lia|]. split.
    { intros v H C. rewrite HV by assumption. destruct (g2l_lt gm comp k g2l' HG v H C) as [A _]. pose proof (SB _ A). lia. }
    intros EX _ y. destruct (EX _ _ MS ES) as [_ OPT]. specialize (OPT _ (relabel_ok gm comp k g2l' LG' L y)). apply GmViewProps.qlt_false in OPT.
    rewrite (relabel_total gm MC comp k g2l' LG' HG L PL y) in OPT. rewrite (sub_total gm comp k g2l' L PL sa) in OPT. eapply Qcle_trans; [|exact OPT]. apply qsum_le. intros f I. destruct (inside_In k f I) as (_ & L2 & C1 & C2).
    unfold DmcSub.cutc. rewrite !HV by (assumption || lia). destruct (Nat.eqb_spec (nth (nth (ia f) g2l' 0) sa 0 + o) (nth (nth (ja f) g2l' 0) sa 0 + o)), (Nat.eqb_spec (nth (nth (ia f) g2l' 0) sa 0) (nth (nth (ja f) g2l' 0) sa 0)); try lia; apply Qcle_refl.
Qed.
Lemma loop_ok : forall arg used g2l, length arg = n -> length used = F -> length g2l = n -> marks 0 used ->
  exists r used' g2l' o, foldM (dm_sub gm solve) (map scls (seq 0 K)) (arg, used, g2l, 0) = Ret (r, used', g2l', o) /\ labeling gm r /\
    (forall v w, v < n -> w < n -> comp v <> comp w -> nth v r 0 <> nth w r 0) /\ forall k, k < K -> good k r.
Proof.
  intros arg used g2l LA LU LG MK.
  destruct (AStarSearch.foldM_ind _ _ (dm_sub gm solve) (fun k st => let '(a, u, g, o) := st in length a = n /\ length u = F /\ length g = n /\ marks k u /\ o = off k /\
    (forall v, v < n -> comp v < k -> off (comp v) <= nth v a 0 < off (S (comp v))) /\ forall j, j < k -> good j a) (map scls (seq 0 K)) (arg, used, g2l, 0)) as ([[[r u] g] o] & E & H).
  - split; [exact LA|]. split; [exact LU|]. split; [exact LG|]. split; [exact MK|]. split; [|split; intros; lia]. unfold off. induction (seq 0 n) as [|v l IH]; [reflexivity|exact IH].
  - intros k vs [[[a u] g] o] Hk (A1 & A2 & A3 & A4 & A5 & A6 & A7). assert (k < K) by (assert (X : nth_error (map scls (seq 0 K)) k <> None) by congruence; apply nth_error_Some in X; rewrite map_length, seq_length in X; exact X).
    rewrite nth_error_map, PartitionProofs.nth_error_seq in Hk by assumption. injection Hk as <-. cbn [Nat.add].
    destruct (sub_ok k a u g o A1 A2 A3 A4) as (a' & u' & g' & E & B1 & B2 & B3 & B4 & B5 & B6 & B7). eexists. split; [exact E|]. cbv beta iota. split; [exact B1|]. split; [exact B2|]. split; [exact B3|]. split; [exact B4|].
    split; [rewrite off_S; lia|]. split.
    + intros v Hv C. destruct (Nat.eq_dec (comp v) k) as [EQ|NE]; [rewrite EQ; rewrite off_S, <- A5; apply B6; assumption|]. rewrite B5 by assumption. apply A6; [exact Hv|lia].
    + intros j Hj. destruct (Nat.eq_dec j k) as [->|NE]; [exact B7|]. apply (good_ext j a); [|apply A7; lia]. intros v Hv C. apply B5; [exact Hv|lia].
  - destruct H as (A1 & _ & _ & _ & _ & A6 & A7). rewrite map_length, seq_length in A6, A7. exists r, u, g, o. split; [exact E|]. split.
    + unfold labeling. destruct MC as [M _]. rewrite M. assert (X : forall m l, Forall (fun a => a < m) l -> in_shape (repeat m (length l)) l) by (intros m; induction l as [|a l IH]; intros H; cbn; constructor; inversion H; subst; auto; apply IH; assumption).
      rewrite <- A1 at 2. apply X. apply Forall_forall. intros a I. apply (In_nth _ _ 0) in I. destruct I as (v & Hv & <-). rewrite A1 in Hv. pose proof (A6 v Hv (CL v Hv)). pose proof (off_le (S (comp v))). lia.
    + split; [|exact A7]. intros v w Hv Hw NE EQ. pose proof (A6 v Hv (CL v Hv)). pose proof (A6 w Hw (CL w Hw)). destruct (Nat.lt_total (comp v) (comp w)) as [X|[X|X]]; [|contradiction|].
      * pose proof (off_mono (S (comp v)) (comp w) X). lia.
      * pose proof (off_mono (S (comp w)) (comp v) X). lia.
Qed.
(** The whole *)
Lemma whole : forall r y, labeling gm r -> labeling gm y -> (forall v w, v < n -> w < n -> comp v <> comp w -> nth v r 0 <> nth w r 0) -> (forall k, k < K -> good k r) ->
  dm_exact solve -> (forall k, k < K -> pair_ok k) -> (forall f, f < F -> comp (ia f) <> comp (ja f) -> (wt f <= 0)%Qc) -> (total AdderQ gm r <= total AdderQ gm y)%Qc.
Proof.
  intros r y LR LY D G EX PO CR. rewrite !(total_cut gm MC) by (apply labeling_length; assumption). apply Qcplus_le_compat; [apply Qcle_refl|].
  set (key := fun f => if comp (ia f) =? comp (ja f) then comp (ia f) else K).
  assert (KF : Forall (fun f => key f < S K) (seq 0 F)). { apply Forall_forall. intros f I. apply in_seq in I. unfold key. destruct (fac_ok gm MC f) as (_ & L & _); [lia|]. pose proof (CL (ia f)). destruct (_ =? _); lia. }
  rewrite <- (qsum_split _ (cutc r) key (S K) (seq 0 F) KF), <- (qsum_split _ (cutc y) key (S K) (seq 0 F) KF). apply qsum_le. intros k I. apply in_seq in I. destruct (Nat.eq_dec k K) as [->|NE].
  - apply qsum_le. intros f J. apply filter_In in J. destruct J as [J1 J2]. apply in_seq in J1. apply Nat.eqb_eq in J2. unfold key in J2. destruct (fac_ok gm MC f) as (_ & L & _); [lia|]. pose proof (CL (ia f) ltac:(lia)) as CI.
    destruct (Nat.eqb_spec (comp (ia f)) (comp (ja f))) as [EQ|NE]; [lia|]. unfold DmcSub.cutc. destruct (Nat.eqb_spec (nth (ia f) r 0) (nth (ja f) r 0)) as [X|X]; [exfalso; revert X; apply D; lia || exact NE|].
    destruct (_ =? _); [apply CR; [lia|exact NE]|apply Qcle_refl].
  - assert (EQ : filter (fun f => key f =? k) (seq 0 F) = filter (inside k) (seq 0 F)).
    { apply filter_ext_in. intros f J. unfold key, DmcSub.inside. destruct (Nat.eqb_spec (comp (ia f)) (comp (ja f))) as [X|X]; [rewrite <- X; destruct (_ =? _); reflexivity|].
      destruct (Nat.eqb_spec K k); [lia|]. destruct (Nat.eqb_spec (comp (ia f)) k), (Nat.eqb_spec (comp (ja f)) k); try reflexivity. lia. }
    rewrite EQ. apply G; [lia|exact EX|apply PO; lia].
Qed.
End Run.
