(** Proofs about the disjoint_set model. *)
From Coq Require Import Relations Sorted.
From Verif Require Import Base PartitionModel UnionFind PartitionProofs DisjointSetModel.

Record DInv (d : dset) (n : nat) (pairs : list (nat * nat)) : Prop := {
  di_n : ds_numberOfElements d = n;
  di_len : length (ds_p d) = n;
  di_slen : length (ds_size d) = n;
  di_forest : Forest (ds_p d) (ds_rank d);
  di_agrees : Agrees (ds_p d) pairs;
  di_sets : ds_numberOfSets d = length (roots (ds_p d));
  di_sizes : forall r, nth_error (ds_p d) r = Some r ->
    exists l, NoDup l /\ length l = nth r (ds_size d) 0 /\ forall z, In z l <-> Root (ds_p d) z r }.

Lemma DInv_init : forall n, DInv (ds_init n) n [].
Proof.
  intro n. pose proof (PInv_init n) as [H1 H2 H3 H4 H5 H6].
  constructor; auto.
  - apply repeat_length.
  - cbn. intros r Hr. assert (Hlt : r < n).
    { rewrite <- (seq_length n 0). apply nth_error_Some. congruence. }
    exists [r]. split; [constructor; [tauto|constructor]|]. split.
    + cbn. assert (G : nth_error (repeat 1 n) r = Some 1) by (apply nth_error_repeat; auto).
      symmetry. apply nth_error_nth. auto.
    + intro z. rewrite seq_Root. split.
      * intros [<-|[]]. auto.
      * intros [-> _]. left. auto.
Qed.

Lemma DInv_find : forall d n pairs a, DInv d n pairs -> a < n ->
  exists d' r, ds_find d a = Ret (d', r) /\ DInv d' n pairs /\ Root (ds_p d) a r /\
    (forall z s, Root (ds_p d') z s <-> Root (ds_p d) z s) /\
    (forall z, nth_error (ds_p d') z = Some z <-> nth_error (ds_p d) z = Some z) /\
    ds_size d' = ds_size d /\ ds_rank d' = ds_rank d.
Proof.
  intros d n pairs a HI Ha.
  pose proof (di_forest _ _ _ HI) as HF.
  assert (Ha' : a < length (ds_p d)) by (rewrite (di_len _ _ _ HI); auto).
  destruct (Root_exists _ _ HF a Ha') as [r HR].
  unfold ds_find. erewrite find_root_Root by eauto. cbn [bind].
  rewrite wr_Ret by auto. cbn [bind].
  eexists. exists r. split; [reflexivity|].
  assert (Hroots : forall z s, Root (upd (ds_p d) a r) z s <-> Root (ds_p d) z s).
  { destruct (Nat.eq_dec a r) as [->|N].
    - rewrite upd_same; [tauto|]. eapply Root_self; eauto.
    - eapply upd_root_Root; eauto. }
  assert (HF' : Forest (upd (ds_p d) a r) (ds_rank d)).
  { destruct (Nat.eq_dec a r) as [->|N].
    - rewrite upd_same; auto. eapply Root_self; eauto.
    - eapply upd_root_Forest; eauto. }
  assert (Hself : forall z, nth_error (upd (ds_p d) a r) z = Some z <-> nth_error (ds_p d) z = Some z).
  { intro z. split; intro H; apply Root_of_root in H; apply Hroots in H; eapply Root_self; eauto. }
  split; [|cbn; auto 10].
  constructor; cbn.
  - apply HI.
  - rewrite length_upd. apply HI.
  - apply HI.
  - auto.
  - intros x y s t Hx Hy. apply Hroots in Hx. apply Hroots in Hy. apply (di_agrees _ _ _ HI); auto.
  - rewrite (di_sets _ _ _ HI). apply NoDup_same_length; try apply roots_NoDup.
    intro x. rewrite !roots_In. symmetry. apply Hself.
  - intros s Hs. apply Hself in Hs. destruct (di_sizes _ _ _ HI s Hs) as [l [L1 [L2 L3]]].
    exists l. split; auto. split; auto. intro z. rewrite L3. symmetry. apply Hroots.
Qed.


Lemma sizes_link : forall ps rs ss a b, Forest ps rs ->
  nth_error ps a = Some a -> nth_error ps b = Some b -> a <> b -> b < length ss ->
  (forall r, nth_error ps r = Some r ->
    exists l, NoDup l /\ length l = nth r ss 0 /\ forall z, In z l <-> Root ps z r) ->
  forall r, nth_error (upd ps a b) r = Some r ->
    exists l, NoDup l /\ length l = nth r (upd ss b (nth b ss 0 + nth a ss 0)) 0 /\
      forall z, In z l <-> Root (upd ps a b) z r.
Proof.
  intros ps rs ss a b HF Ha Hb Hne Hbs HS r Hr.
  assert (La : a < length ps) by (apply nth_error_Some; congruence).
  assert (Nra : r <> a).
  { intros ->. rewrite nth_error_upd_eq in Hr by auto. congruence. }
  rewrite nth_error_upd_neq in Hr by auto.
  destruct (Nat.eq_dec r b) as [->|Nrb].
  - destruct (HS a Ha) as [la [A1 [A2 A3]]]. destruct (HS b Hb) as [lb [B1 [B2 B3]]].
    exists (lb ++ la). split; [|split].
    + apply NoDup_app_intro; auto. intros x Hx Hy. apply B3 in Hx. apply A3 in Hy.
      apply Hne. eapply Root_det; eauto.
    + rewrite app_length, nth_upd_eq by auto. lia.
    + intro z. rewrite in_app_iff, A3, B3, (link_Root _ _ _ _ HF Ha Hb Hne). split.
      * intros [H|H]; [exists b|exists a]; split; auto; destruct (Nat.eq_dec _ _); congruence.
      * intros [t [Ht E]]. destruct (Nat.eq_dec t a); [subst; auto|subst; auto].
  - destruct (HS r Hr) as [l [L1 [L2 L3]]]. exists l. split; auto. split.
    + rewrite nth_upd_neq; auto.
    + intro z. rewrite L3, (link_Root _ _ _ _ HF Ha Hb Hne). split.
      * intro H. exists r. split; auto. destruct (Nat.eq_dec r a); congruence.
      * intros [t [Ht E]]. destruct (Nat.eq_dec t a); [congruence|subst; auto].
Qed.

Lemma DInv_join : forall d n pairs a b, DInv d n pairs -> a < n -> b < n ->
  exists d', ds_join d a b = Ret d' /\ DInv d' n ((a, b) :: pairs).
Proof.
  intros d n pairs a b HI Ha Hb.
  destruct (DInv_find _ _ _ a HI Ha) as [d1 [ra [E1 [HI1 [R1 [Q1 [_ _]]]]]]].
  destruct (DInv_find _ _ _ b HI1 Hb) as [d2 [rb [E2 [HI2 [R2 [Q2 [_ _]]]]]]].
  unfold ds_join. rewrite E1. cbn [bind]. rewrite E2. cbn [bind].
  assert (Ra : Root (ds_p d2) a ra) by (apply Q2, Q1; auto).
  assert (Rb : Root (ds_p d2) b rb) by (apply Q2; auto).
  pose proof (Root_lt _ _ _ Ra) as [_ La]. pose proof (Root_lt _ _ _ Rb) as [_ Lb].
  pose proof (di_forest _ _ _ HI2) as HF. pose proof (proj1 HF) as HL.
  pose proof (Root_self _ _ _ Ra) as Sa. pose proof (Root_self _ _ _ Rb) as Sb.
  pose proof (di_agrees _ _ _ HI2) as HA.
  pose proof (di_len _ _ _ HI2) as Hn. pose proof (di_slen _ _ _ HI2) as Hsn.
  destruct (Nat.eqb_spec ra rb) as [Heq|Hne]; cbn [negb].
  { eexists. split; [reflexivity|]. destruct HI2 as [I1 I2 I3 I4 I5 I6 I7].
    constructor; auto. eapply same_Agrees; eauto. congruence. }
  rewrite (rd_nth _ (ds_rank d2) ra 0) by lia. cbn [bind].
  rewrite (rd_nth _ (ds_rank d2) rb 0) by lia. cbn [bind].
  rewrite (rd_nth _ (ds_size d2) ra 0) by lia. cbn [bind].
  rewrite (rd_nth _ (ds_size d2) rb 0) by lia. cbn [bind].
  destruct (link_Agrees _ _ _ _ _ _ _ HF HA Ra Rb Hne) as [A1 A2].
  destruct (Nat.ltb_spec (nth rb (ds_rank d2) 0) (nth ra (ds_rank d2) 0)) as [Hlt|Hge].
  - rewrite wr_Ret by lia. cbn [bind]. rewrite wr_Ret by lia. cbn [bind].
    eexists. split; [reflexivity|]. constructor; cbn; auto.
    + apply HI2.
    + rewrite length_upd. auto.
    + rewrite length_upd. auto.
    + apply (link_Forest _ (ds_rank d2)); auto.
    + rewrite (di_sets _ _ _ HI2). erewrite (roots_link (ds_p d2) rb ra) by auto. reflexivity.
    + eapply sizes_link; eauto; try lia. apply HI2.
  - rewrite wr_Ret by lia. cbn [bind]. rewrite wr_Ret by lia. cbn [bind].
    destruct (Nat.eqb_spec (nth ra (ds_rank d2) 0) (nth rb (ds_rank d2) 0)) as [Hr|Hr].
    + rewrite wr_Ret by lia. cbn [bind].
      eexists. split; [reflexivity|]. constructor; cbn; auto.
      * apply HI2.
      * rewrite length_upd. auto.
      * rewrite length_upd. auto.
      * apply (link_Forest _ (ds_rank d2)); auto.
        -- apply length_upd.
        -- intros x Hx. rewrite nth_upd_neq; auto.
        -- rewrite nth_upd_eq by lia. lia.
        -- rewrite nth_upd_eq by lia. lia.
      * rewrite (di_sets _ _ _ HI2). erewrite (roots_link (ds_p d2) ra rb) by auto. reflexivity.
      * eapply sizes_link; eauto; try lia. apply HI2.
    + eexists. split; [reflexivity|]. constructor; cbn; auto.
      * apply HI2.
      * rewrite length_upd. auto.
      * rewrite length_upd. auto.
      * apply (link_Forest _ (ds_rank d2)); auto. lia.
      * rewrite (di_sets _ _ _ HI2). erewrite (roots_link (ds_p d2) ra rb) by auto. reflexivity.
      * eapply sizes_link; eauto; try lia. apply HI2.
Qed.

Lemma DInv_size : forall d n pairs a, DInv d n pairs -> a < n ->
  exists d' k, ds_sizeOf d a = Ret (d', k) /\ DInv d' n pairs /\
    exists l, NoDup l /\ length l = k /\ forall z, In z l <-> z < n /\ connected pairs a z.
Proof.
  intros d n pairs a HI Ha.
  destruct (DInv_find _ _ _ a HI Ha) as [d1 [ra [E1 [HI1 [R1 [Q1 [S1 [Z1 _]]]]]]]].
  unfold ds_sizeOf. rewrite E1. cbn [bind].
  pose proof (Root_lt _ _ _ R1) as [_ Lr]. rewrite (di_len _ _ _ HI) in Lr.
  rewrite (rd_nth _ (ds_size d1) ra 0) by (rewrite (di_slen _ _ _ HI1); auto). cbn [bind].
  eexists. eexists. split; [reflexivity|]. split; auto.
  destruct (di_sizes _ _ _ HI1 ra) as [l [L1 [L2 L3]]]; [apply S1; eapply Root_self; eauto|].
  exists l. split; auto. split; auto.
  intro z. rewrite L3, Q1. split.
  - intro H. pose proof (Root_lt _ _ _ H) as [Hz _]. rewrite (di_len _ _ _ HI) in Hz. split; auto.
    apply (di_agrees _ _ _ HI a z ra ra); auto.
  - intros [Hz C]. rewrite <- (di_len _ _ _ HI) in Hz.
    destruct (Root_exists _ _ (di_forest _ _ _ HI) z Hz) as [r Hr].
    assert (ra = r) by (apply (di_agrees _ _ _ HI a z ra r); auto). subst. auto.
Qed.

Lemma filter_seq_S : forall (f : nat -> bool) k, filter f (seq 0 (S k)) =
  filter f (seq 0 k) ++ (if f k then [k] else []).
Proof. intros. rewrite seq_S, filter_app. simpl. destruct (f k); reflexivity. Qed.

Lemma labeling_loop_ds : forall d n pairs, DInv d n pairs -> forall k, k <= n ->
  exists d' m,
    foldM (fun st i =>
      let '(d, repL, n) := st in
      '(d', x) <- ds_find d i ;;
      Ret (if Nat.eqb i x then (d', map_put repL i n, S n) else (d', repL, n)))
    (seq 0 k) (d, [], 0) = Ret (d', m, length (filter (is_root (ds_p d)) (seq 0 k))) /\
    DInv d' n pairs /\ (forall z s, Root (ds_p d') z s <-> Root (ds_p d) z s) /\
    (forall j x, nth_error (filter (is_root (ds_p d)) (seq 0 k)) j = Some x -> map_at m x = j) /\
    (forall x, In x (map fst m) <-> In x (filter (is_root (ds_p d)) (seq 0 k))).
Proof.
  intros d n pairs HI. induction k as [|k IH]; intro Hk.
  - exists d, []. simpl. split; auto. split; auto. split; [tauto|]. split; [|tauto].
    intros [|j] x H; discriminate.
  - destruct IH as [d1 [m [E [HI1 [Q [Hm Hkeys]]]]]]; [lia|].
    rewrite filter_seq_S. rewrite seq_S, foldM_app, E. cbn [bind foldM plus].
    destruct (DInv_find _ _ _ k HI1) as [d2 [r [E2 [HI2 [R2 [Q2 _]]]]]]; [lia|].
    rewrite E2. cbn [bind].
    assert (Hroot : is_root (ds_p d) k = Nat.eqb k r).
    { apply eq_true_iff_eq. rewrite Nat.eqb_eq. unfold is_root. apply Q in R2.
      destruct (nth_error_lt _ (ds_p d) k) as [y Hy]; [rewrite (di_len _ _ _ HI); lia|].
      rewrite Hy, Nat.eqb_eq. split.
      - intros ->. eapply Root_root_eq; eauto.
      - intros <-. pose proof (Root_self _ _ _ R2). congruence. }
    rewrite Hroot. destruct (Nat.eqb_spec k r) as [<-|N].
    + exists d2. eexists. split; [rewrite app_length; simpl; rewrite Nat.add_1_r; reflexivity|].
      split; auto. split; [intros; rewrite Q2; apply Q|].
      set (l := filter (is_root (ds_p d)) (seq 0 k)) in *.
      assert (Hnk : ~ In k l).
      { unfold l. rewrite filter_In, in_seq. lia. }
      split.
      * intros j x Hj. destruct (Nat.lt_ge_cases j (length l)) as [Hlt|Hge].
        -- rewrite nth_error_app1 in Hj by auto. rewrite map_at_put_neq; auto.
           intros <-. apply Hnk. eapply nth_error_In; eauto.
        -- rewrite nth_error_app2 in Hj by auto.
           destruct (j - length l) as [|q] eqn:Eq; [|destruct q; discriminate].
           injection Hj as <-. rewrite map_at_put_eq. lia.
      * intro x. rewrite map_put_keys, Hkeys, in_app_iff. simpl. intuition.
    + exists d2, m. rewrite app_nil_r. split; auto. split; auto.
      split; [intros; rewrite Q2; apply Q|]. auto.
Qed.

Lemma DInv_labeling : forall d n pairs, DInv d n pairs ->
  exists d' m, ds_representativeLabeling d = Ret (d', m) /\ DInv d' n pairs /\
    (forall j x, nth_error (roots (ds_p d)) j = Some x -> map_at m x = j) /\
    (forall x, In x (map fst m) <-> In x (roots (ds_p d))).
Proof.
  intros d n pairs HI. unfold ds_representativeLabeling. rewrite (di_n _ _ _ HI).
  destruct (labeling_loop_ds _ _ _ HI n) as [d' [m [E [HI' [_ [Hm Hk]]]]]]; auto.
  rewrite E. cbn [bind]. exists d', m. split; auto. split; auto.
  unfold roots. rewrite (di_len _ _ _ HI). auto.
Qed.

Fixpoint ds_valid (n : nat) (ops : list ds_op) : Prop :=
  match ops with
  | [] => True
  | DJoin a b :: t => a < n /\ b < n /\ ds_valid n t
  | DFind a :: t => a < n /\ ds_valid n t
  | DSize a :: t => a < n /\ ds_valid n t
  | DLabeling :: t => ds_valid n t
  end.

Fixpoint ds_pairs (acc : list (nat * nat)) (ops : list ds_op) : list (nat * nat) :=
  match ops with
  | [] => acc
  | DJoin a b :: t => ds_pairs ((a, b) :: acc) t
  | _ :: t => ds_pairs acc t
  end.

Lemma ds_run_inv : forall ops d n pairs, DInv d n pairs -> ds_valid n ops ->
  exists d', foldM ds_step ops d = Ret d' /\ DInv d' n (ds_pairs pairs ops).
Proof.
  induction ops as [|o ops IH]; intros d n pairs HI HV.
  - simpl. eauto.
  - cbn [foldM]. destruct o as [a b|a|a|]; cbn [ds_step ds_pairs]; cbn [ds_valid] in HV.
    + destruct HV as [Ha [Hb HV]].
      destruct (DInv_join _ _ _ a b HI Ha Hb) as [d' [E HI']]. rewrite E. cbn [bind]. apply IH; auto.
    + destruct HV as [Ha HV].
      destruct (DInv_find _ _ _ a HI Ha) as [d' [r [E [HI' _]]]]. rewrite E. cbn [bind]. apply IH; auto.
    + destruct HV as [Ha HV].
      destruct (DInv_size _ _ _ a HI Ha) as [d' [r [E [HI' _]]]]. rewrite E. cbn [bind]. apply IH; auto.
    + destruct (DInv_labeling _ _ _ HI) as [d' [m [E [HI' _]]]]. rewrite E. cbn [bind]. apply IH; auto.
Qed.

Lemma C03_main : forall n ops, ds_valid n ops ->
  exists d, ds_run n ops = Ret d /\
  let prs := ds_pairs [] ops in
  (forall a b, a < n -> b < n -> exists da ra db rb,
     ds_find d a = Ret (da, ra) /\ ds_find d b = Ret (db, rb) /\
     connected prs a ra /\ ra < n /\ (ra = rb <-> connected prs a b)) /\
  (forall a, a < n -> exists d' k l, ds_sizeOf d a = Ret (d', k) /\
     NoDup l /\ length l = k /\ forall z, In z l <-> z < n /\ connected prs a z) /\
  exists d' m reps, ds_representativeLabeling d = Ret (d', m) /\
     ds_numberOfSets d = length reps /\ StronglySorted lt reps /\
     (forall r, In r reps -> r < n) /\
     (forall a, a < n -> exists! r, In r reps /\ connected prs a r) /\
     (forall j r, nth_error reps j = Some r -> map_at m r = j) /\
     (forall r, In r (map fst m) <-> In r reps).
Proof.
  intros n ops HV.
  destruct (ds_run_inv ops (ds_init n) n [] (DInv_init n) HV) as [d [E HI]].
  exists d. split; auto. cbv zeta. set (prs := ds_pairs [] ops) in *.
  split; [|split].
  - intros a b Ha Hb.
    destruct (DInv_find _ _ _ a HI Ha) as [da [ra [Ga [_ [Ra _]]]]].
    destruct (DInv_find _ _ _ b HI Hb) as [db [rb [Gb [_ [Rb _]]]]].
    exists da, ra, db, rb. split; auto. split; auto. split.
    + apply (di_agrees _ _ _ HI a ra ra ra); auto. apply Root_of_root. eapply Root_self; eauto.
    + split; [rewrite <- (di_len _ _ _ HI); apply (Root_lt _ _ _ Ra)|].
      apply (di_agrees _ _ _ HI); auto.
  - intros a Ha. destruct (DInv_size _ _ _ a HI Ha) as [d' [k [Ek [_ [l G]]]]].
    exists d', k, l. auto.
  - destruct (DInv_labeling _ _ _ HI) as [d' [m [Em [_ [G1 G2]]]]].
    exists d', m, (roots (ds_p d)). split; auto. split; [apply HI|].
    split; [apply roots_sorted_filter|].
    split; [intros r Hr; rewrite roots_In in Hr; rewrite <- (di_len _ _ _ HI); apply nth_error_Some; congruence|].
    split; auto.
    intros a Ha. rewrite <- (di_len _ _ _ HI) in Ha.
    destruct (Root_exists _ _ (di_forest _ _ _ HI) a Ha) as [r Hr].
    pose proof (Root_self _ _ _ Hr) as Hs.
    exists r. split.
    + split; [apply roots_In; auto|].
      apply (di_agrees _ _ _ HI a r r r); auto. apply Root_of_root; auto.
    + intros r' [Hin C]. apply roots_In in Hin.
      apply (di_agrees _ _ _ HI a r' r r'); auto. apply Root_of_root; auto.
Qed.
