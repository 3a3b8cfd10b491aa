(** Proofs about copying, assigning and resizing arrays. *)
From Coq Require Import Permutation.
From Verif Require Import Base ShapeSpec ShapeProofs MarrayModel MarraySpec MarrayProofs MarrayIter MarrayMem.

(** * Overlap *)
Lemma index_of_last : forall sh, positive sh -> index_of sh (map (fun s => s - 1) sh) = size_of sh - 1.
Proof.
  induction sh as [|s sh IH]; intros P; [reflexivity|]. inversion P; subst. cbn [map index_of]. rewrite IH by auto.
  rewrite size_of_cons. pose proof (size_of_pos sh H2). nia.
Qed.
Lemma in_shape_last : forall sh, positive sh -> in_shape sh (map (fun s => s - 1) sh).
Proof. intros sh P. unfold in_shape. induction P; cbn; constructor; auto. lia. Qed.
Lemma nth_coord_last : forall o sh, positive sh -> nth_coord o sh (size_of sh - 1) = map (fun s => s - 1) sh.
Proof.
  intros o sh P. rewrite <- (nth_coord_number o sh (map (fun s => s - 1) sh)) by (apply in_shape_last; auto). f_equal.
  destruct o; cbn [number].
  - rewrite <- map_rev, index_of_last by (apply positive_rev; auto). rewrite size_of_rev. auto.
  - rewrite index_of_last; auto.
Qed.
Lemma dot_last : forall sh c st, in_shape sh c -> dot c st <= dot (map (fun s => s - 1) sh) st.
Proof.
  intros sh c st H. revert st. unfold in_shape in H. induction H as [|x s c sh Hx H IH]; intros [|t st]; cbn; auto. specialize (IH st).
  assert (x * t <= (s - 1) * t) by (apply Nat.mul_le_mono_r; lia). lia.
Qed.
Lemma addr_max : forall v c, wf_view v -> in_shape (v_shape v) c -> addr v c <= nth_addr v (v_size v - 1).
Proof.
  intros v c W H. unfold nth_addr. rewrite (wv_size v W), nth_coord_last by (apply (wv_pos v W)). unfold addr.
  destruct (v_data v); auto. pose proof (dot_last (v_shape v) c (v_strides v) H). lia.
Qed.

Lemma overlaps_spec : forall v w, wf_view v -> wf_view w ->
  exists b, overlaps v w = Ret b /\
    (b = false -> forall c d, in_shape (v_shape v) c -> in_shape (v_shape w) d -> addr v c <> addr w d).
Proof.
  intros v w W1 W2. pose proof (size_pos v W1) as S1. pose proof (size_pos w W2) as S2. unfold overlaps.
  destruct (v_data v) as [p|] eqn:D1; [|destruct (wv_data v W1 D1)]. destruct (v_data w) as [q|] eqn:D2; [|destruct (wv_data w W2 D2)].
  destruct (Nat.eqb_spec (v_size v) 0); [lia|]. destruct (Nat.eqb_spec (v_size w) 0); [lia|]. cbn [orb].
  rewrite !at_index_spec by (auto; lia). cbn [bind]. eexists. split; [reflexivity|]. intros H c d Hc Hd E.
  fold (nth_addr v (v_size v - 1)) in H. fold (nth_addr w (v_size w - 1)) in H.
  pose proof (addr_max v c W1 Hc) as M1. pose proof (addr_max w d W2 Hd) as M2.
  assert (p <= addr v c) by (unfold addr; rewrite D1; lia). assert (q <= addr w d) by (unfold addr; rewrite D2; lia).
  apply orb_false_iff in H. destruct H as [H H']. apply andb_false_iff in H, H'. rewrite !Nat.leb_gt in *. lia.
Qed.

Section Ops.
Context {V : Type}.
Variable garbage : V.
Notation memory := (list V).

(** * Arrays: simple views *)
Definition array_at (d : nat) (g : geometry) : view :=
  View (Some d) (Geo (g_shape g) (g_shapeStrides g) (g_shapeStrides g) (g_size g) (g_order g) true).

Lemma array_at_wf : forall v d, wf_view v -> wf_view (array_at d (v_geo v)).
Proof.
  intros v d W. constructor; cbn; auto.
  - discriminate.
  - apply (wv_pos v W).
  - change (g_shapeStrides (v_geo v)) with (g_shapeStrides (v_geo v)). rewrite (wv_ss v W), spec_strides_length. auto.
  - apply (wv_ss v W).
  - apply (wv_size v W).
  - intros _. apply (wv_ss v W).
Qed.
Lemma simple_addr : forall v b c, wf_view v -> v_simple v = true -> v_data v = Some b -> length c = length (v_shape v) ->
  addr v c = b + number (v_order v) (v_shape v) c.
Proof. intros v b c W S D L. unfold addr. rewrite D, (wv_simple v W S), dot_spec_strides by auto. auto. Qed.
Lemma simple_injective : forall v, wf_view v -> v_simple v = true -> injective v.
Proof.
  intros v W S c d Hc Hd E. destruct (v_data v) as [b|] eqn:D; [|destruct (wv_data v W D)].
  rewrite !(simple_addr v b) in E by (auto; apply in_shape_length; auto). apply (number_inj (v_order v) (v_shape v)); auto. lia.
Qed.

(** Copying all entries of a view to consecutive addresses, as an element-wise update. *)
Lemma gather_ok : forall v d (m : memory), wf_view v -> d + v_size v <= length m -> fits m v ->
  (forall c, in_shape (v_shape v) c -> addr v c < d \/ d + v_size v <= addr v c) ->
  exists m', foldM (step2 (fun _ y => y)) (map (fun j => (d + j, nth_addr v j)) (seq 0 (v_size v))) m = Ret m' /\ length m' = length m /\
    (forall c, in_shape (v_shape v) c -> nth_error m' (d + number (v_order v) (v_shape v) c) = nth_error m (addr v c)) /\
    (forall a, a < d \/ d + v_size v <= a -> nth_error m' a = nth_error m a).
Proof.
  intros v d m W Hd F DJ. pose proof (wv_pos v W) as P. set (t := array_at d (v_geo v)).
  assert (Wt : wf_view t) by (apply array_at_wf; auto).
  assert (AT : forall c, in_shape (v_shape v) c -> addr t c = d + number (v_order v) (v_shape v) c).
  { intros c Hc. rewrite (simple_addr t d); auto. apply in_shape_length; auto. }
  assert (E : map (fun j => (d + j, nth_addr v j)) (seq 0 (v_size v)) = map (fun c => (addr t c, addr v c)) (ncoords (v_order v) (v_shape v))).
  { unfold ncoords. rewrite map_map, <- (wv_size v W). apply map_ext_in. intros k Hk. apply in_seq in Hk. unfold nth_addr.
    rewrite AT by (apply nth_coord_in_shape; auto). rewrite number_nth_coord; auto. rewrite <- (wv_size v W). lia. }
  rewrite E.
  assert (NB : forall c, in_shape (v_shape v) c -> number (v_order v) (v_shape v) c < v_size v).
  { intros c Hc. rewrite (wv_size v W). apply number_lt; auto. }
  destruct (pairs_by_coord (fun _ y => y) t v m (ncoords (v_order v) (v_shape v)) Wt W eq_refl) as (m' & E' & L & U & K).
  - apply ncoords_NoDup; auto.
  - intros c. apply ncoords_all; auto.
  - apply simple_injective; auto.
  - intros c Hc. rewrite AT by auto. specialize (NB c Hc). lia.
  - auto.
  - intros c c2 Hc Hc2 Q. change (v_shape t) with (v_shape v) in *. rewrite AT in Q by auto. specialize (NB c2 Hc2). destruct (DJ c Hc); lia.
  - exists m'. split; [auto|]. split; [auto|]. split.
    + intros c Hc. rewrite <- AT by auto. destruct (nth_error_lt m (addr t c)) as (x & Ex).
      { rewrite AT by auto. specialize (NB c Hc). lia. }
      destruct (nth_error_lt m (addr v c) (F c Hc)) as (y & Ey). rewrite (U c x y Hc Ex Ey). auto.
    + intros a Ha. apply K. intros c Hc Q. change (v_shape t) with (v_shape v) in Hc. rewrite AT in Q by auto. specialize (NB c Hc). lia.
Qed.

Lemma copyM_gather : forall v b d (m : memory), wf_view v -> v_simple v = true -> v_data v = Some b ->
  copyM (fun _ y => y) d b (v_size v) m = foldM (step2 (fun _ y => y)) (map (fun j => (d + j, nth_addr v j)) (seq 0 (v_size v))) m.
Proof.
  intros v b d m W S D. rewrite copyM_pairs. f_equal. apply map_ext_in. intros j Hj. apply in_seq in Hj.
  destruct (base_addr v j W) as [_ B]. rewrite B by (auto; lia). rewrite (addr_0 v b) by auto. auto.
Qed.

Lemma marray_of_view_ok : forall v (m : memory), wf_view v -> iterable v -> fits m v ->
  exists m', marray_of_view garbage v m = Ret (array_at (length m) (v_geo v), m') /\ length m' = length m + v_size v /\
    (forall c, in_shape (v_shape v) c -> nth_error m' (addr (array_at (length m) (v_geo v)) c) = nth_error m (addr v c)) /\
    (forall a, a < length m -> nth_error m' a = nth_error m a).
Proof.
  intros v m W I F. pose proof (size_pos v W) as SP. unfold marray_of_view. destruct (Nat.eqb_spec (v_size v) 0); [lia|].
  destruct (v_data v) as [b|] eqn:D; [|destruct (wv_data v W D)]. cbn [alloc].
  set (m1 := m ++ repeat garbage (v_size v)).
  assert (L1 : length m1 = length m + v_size v) by (unfold m1; rewrite app_length, repeat_length; auto).
  destruct (gather_ok v (length m) m1 W) as (m' & E & L & U & K).
  - lia.
  - intros c Hc. specialize (F c Hc). lia.
  - intros c Hc. left. apply F; auto.
  - assert (G : (if v_simple v then copyM (fun _ y => y) (length m) b (v_size v) m1
               else it <- it_at v 0 ;;
                 ' (_, m2) <- foldM (fun (st : iter * memory) j =>
                     let '(it, m) := st in
                     y <- rdZ m (i_ptr it) ;;
                     m' <- wr m (length m1 - v_size v + j) y ;;
                     it' <- it_next v it ;;
                     Ret (it', m')) (seq 0 (v_size v)) (it, m1) ;;
                 Ret m2) = Ret m').
    { destruct (v_simple v) eqn:S.
      - rewrite (copyM_gather v b) by auto. auto.
      - destruct (it_at_ok v 0 W I SP) as (it & -> & O). cbn [bind]. rewrite L1. replace (length m + v_size v - v_size v) with (length m) by lia.
        destruct (gather_pairs v (length m) W I (v_size v) 0 it m1 O) as (it' & E2); [lia|lia|]. rewrite E2, E. reflexivity. }
    rewrite L1 in G. replace (length m + v_size v - v_size v) with (length m) in G by lia. unfold alloc.
    fold m1. rewrite G. cbn [bind]. exists m'. split; [reflexivity|]. split; [lia|]. split.
    + intros c Hc. rewrite (simple_addr _ (length m)); auto.
      * change (v_order (array_at (length m) (v_geo v))) with (v_order v). change (v_shape (array_at (length m) (v_geo v))) with (v_shape v).
        rewrite U by auto. unfold m1. apply nth_error_app1. apply F; auto.
      * apply array_at_wf; auto.
      * apply in_shape_length; auto.
    + intros a Ha. rewrite K by lia. unfold m1. apply nth_error_app1; auto.
Qed.

(** * Assignment and element-wise operations between views *)
Lemma apply_after_overlap : forall f to from (m : memory), wf_view to -> wf_view from -> v_shape to = v_shape from ->
  iterable to -> iterable from -> (v_order to = v_order from \/ length (v_shape to) <= 10) ->
  injective to -> fits m to -> fits m from ->
  forall b, (b = false -> forall c d, in_shape (v_shape to) c -> in_shape (v_shape to) d -> addr from c <> addr to d) ->
  exists m', (if (b : bool) then ' (t, m') <- marray_of_view garbage from m ;; apply2 f to t m' else apply2 f to from m) = Ret m' /\
    length m <= length m' /\
    (forall c x y, in_shape (v_shape to) c -> nth_error m (addr to c) = Some x -> nth_error m (addr from c) = Some y ->
       nth_error m' (addr to c) = Some (f x y)) /\
    (forall a, a < length m -> (forall c, in_shape (v_shape to) c -> addr to c <> a) -> nth_error m' a = nth_error m a).
Proof.
  intros f to from m W1 W2 SH I1 I2 OD IN F1 F2 b DJ. destruct b.
  - destruct (marray_of_view_ok from m W2 I2 F2) as (m1 & E1 & L1 & U1 & K1). rewrite E1. cbn [bind].
    set (t := array_at (length m) (v_geo from)) in *. assert (Wt : wf_view t) by (apply array_at_wf; auto).
    assert (AT : forall c, in_shape (v_shape to) c -> length m <= addr t c < length m1).
    { intros c Hc. rewrite SH in Hc. rewrite (simple_addr t (length m)) by (auto; apply in_shape_length; auto).
      pose proof (number_lt (v_order from) (v_shape from) c Hc) as N. rewrite <- (wv_size from W2) in N.
      change (v_order t) with (v_order from). change (v_shape t) with (v_shape from). lia. }
    destruct (apply2_ok f to t m1 W1 Wt) as (m' & E' & L & U & K); auto.
    + left; auto.
    + intros c Hc. specialize (F1 c Hc). lia.
    + intros c Hc. change (v_shape t) with (v_shape from) in Hc. rewrite <- SH in Hc. apply AT; auto.
    + intros c d Hc Hd Q. specialize (AT c Hc). specialize (F1 d Hd). lia.
    + exists m'. split; [auto|]. split; [lia|]. split.
      * intros c x y Hc Hx Hy. apply U; auto.
        -- rewrite K1; auto.
        -- rewrite U1 by (rewrite <- SH; auto). auto.
      * intros a Ha Hn. rewrite K by auto. apply K1; auto.
  - destruct (apply2_ok f to from m W1 W2) as (m' & E' & L & U & K); auto.
    + intros c d Hc Hd Q. exfalso. exact (DJ eq_refl c d Hc Hd Q).
    + exists m'. split; [auto|]. split; [lia|]. split; auto.
Qed.

Lemma assign_data_ok : forall to from (m : memory), wf_view to -> wf_view from -> v_shape to = v_shape from ->
  iterable to -> iterable from -> (v_order to = v_order from \/ length (v_shape to) <= 10) ->
  injective to -> fits m to -> fits m from ->
  exists m', assign_data garbage to from m = Ret m' /\ length m <= length m' /\
    (forall c, in_shape (v_shape to) c -> nth_error m' (addr to c) = nth_error m (addr from c)) /\
    (forall a, a < length m -> (forall c, in_shape (v_shape to) c -> addr to c <> a) -> nth_error m' a = nth_error m a).
Proof.
  intros to from m W1 W2 SH I1 I2 OD IN F1 F2. unfold assign_data. destruct (overlaps_spec from to W2 W1) as (b & -> & B). cbn [bind].
  destruct (apply_after_overlap (fun _ y => y) to from m W1 W2 SH I1 I2 OD IN F1 F2 b) as (m' & E & L & U & K).
  - intros Hb c d Hc Hd. apply B; auto. rewrite <- SH; auto.
  - exists m'. split; [auto|]. split; [auto|]. split; [|auto]. intros c Hc.
    destruct (nth_error_lt m (addr to c) (F1 c Hc)) as (x & Ex). destruct (nth_error_lt m (addr from c)) as (y & Ey); [apply F2; rewrite <- SH; auto|].
    rewrite (U c x y Hc Ex Ey). auto.
Qed.

Lemma operate_view_ok : forall f v w (m : memory), wf_view v -> wf_view w -> v_shape v = v_shape w -> v_shape w <> [] ->
  iterable v -> iterable w -> (v_order v = v_order w \/ length (v_shape v) <= 10) ->
  injective v -> fits m v -> fits m w ->
  exists m', operate_view garbage f v w m = Ret m' /\ length m <= length m' /\
    (forall c x y, in_shape (v_shape v) c -> nth_error m (addr v c) = Some x -> nth_error m (addr w c) = Some y ->
       nth_error m' (addr v c) = Some (f x y)) /\
    (forall a, a < length m -> (forall c, in_shape (v_shape v) c -> addr v c <> a) -> nth_error m' a = nth_error m a).
Proof.
  intros f v w m W1 W2 SH NE I1 I2 OD IN F1 F2. unfold operate_view. unfold v_dim, g_dim. change (g_shape (v_geo w)) with (v_shape w).
  destruct (Nat.eqb_spec (length (v_shape w)) 0) as [Z|_]; [destruct (v_shape w); [congruence|discriminate]|].
  destruct (overlaps_spec v w W1 W2) as (b & -> & B). cbn [bind].
  destruct (apply_after_overlap f v w m W1 W2 SH I1 I2 OD IN F1 F2 b) as (m' & E & L & U & K).
  - intros Hb c d Hc Hd Q. rewrite SH in Hc. apply (B Hb d c); auto.
  - exists m'. auto.
Qed.

Lemma operate_view_scalar_ok : forall f v w (m : memory), wf_view v -> wf_view w -> v_shape w = [] ->
  iterable v -> injective v -> fits m v -> fits m w ->
  exists m', operate_view garbage f v w m = Ret m' /\ length m' = length m /\
    (forall c x y, in_shape (v_shape v) c -> nth_error m (addr v c) = Some x -> nth_error m (addr w []) = Some y ->
       nth_error m' (addr v c) = Some (f x y)) /\
    (forall a, (forall c, in_shape (v_shape v) c -> addr v c <> a) -> nth_error m' a = nth_error m a).
Proof.
  intros f v w m W1 W2 SH I1 IN F1 F2. unfold operate_view. unfold v_dim, g_dim. change (g_shape (v_geo w)) with (v_shape w).
  rewrite SH. cbn [length Nat.eqb]. rewrite at_index_spec by (auto; apply size_pos; auto). cbn [bind].
  fold (nth_addr w 0). destruct (base_addr w 0 W2) as [-> _]. rewrite SH. cbn [length repeat].
  destruct (nth_error_lt m (addr w [])) as (y & Ey); [apply F2; rewrite SH; constructor|].
  rewrite (rd_some _ _ _ Ey). cbn [bind].
  destruct (apply1_ok (fun x => f x y) v m W1 I1 IN F1) as (m' & E & L & U & K). exists m'. split; [auto|]. split; [auto|]. split; [|auto].
  intros c x y' Hc Hx Hy. rewrite (U c x Hc Hx). congruence.
Qed.

(** * Arrays *)
(** Assignment of an array to an array. *)
Lemma marray_assign_ok : forall a b (m : memory), wf_view a -> wf_view b -> v_simple b = true -> v_simple a = true -> fits m a -> fits m b ->
  (forall c d, in_shape (v_shape a) c -> in_shape (v_shape b) d -> addr a c <> addr b d) ->
  exists a' m', marray_assign garbage a b m = Ret (a', m') /\ wf_view a' /\ v_simple a' = true /\
    v_shape a' = v_shape b /\ v_order a' = v_order b /\ length m <= length m' /\ fits m' a' /\
    (v_data a' = v_data a /\ v_size a = v_size b \/ v_data a' = Some (length m)) /\
    (forall c, in_shape (v_shape b) c -> nth_error m' (addr a' c) = nth_error m (addr b c)) /\
    (forall i, i < length m -> (forall c, in_shape (v_shape a) c -> addr a c <> i) -> nth_error m' i = nth_error m i).
Proof.
  intros a b m Wa Wb Sb Sa Fa Fb DJ. pose proof (size_pos b Wb) as SP. pose proof (size_pos a Wa) as SPa. unfold marray_assign.
  destruct (v_data b) as [q|] eqn:Db; [|destruct (wv_data b Wb Db)].
  destruct (v_data a) as [p|] eqn:Da; [|destruct (wv_data a Wa Da)].
  assert (WD : forall d, wf_view (View (Some d) (v_geo b))).
  { intros d. destruct Wb. constructor; auto. cbn. discriminate. }
  assert (G : forall d (m1 : memory), d + v_size b <= length m1 -> fits m1 b ->
    (forall c, in_shape (v_shape b) c -> addr b c < d \/ d + v_size b <= addr b c) ->
    exists m', copyM (fun _ y => y) d q (v_size b) m1 = Ret m' /\ length m' = length m1 /\ fits m' (View (Some d) (v_geo b)) /\
     (forall c, in_shape (v_shape b) c -> nth_error m' (addr (View (Some d) (v_geo b)) c) = nth_error m1 (addr b c)) /\
     (forall i, i < d \/ d + v_size b <= i -> nth_error m' i = nth_error m1 i)).
  { intros d m1 Hd F D. rewrite (copyM_gather b q) by auto. destruct (gather_ok b d m1 Wb Hd F D) as (m' & E & L & U & K).
    exists m'. split; [auto|]. split; [auto|].
    assert (AD : forall c, in_shape (v_shape b) c -> addr (View (Some d) (v_geo b)) c = d + number (v_order b) (v_shape b) c).
    { intros c Hc. apply (simple_addr (View (Some d) (v_geo b)) d); auto. apply in_shape_length; auto. }
    split; [|split; [|auto]].
    - intros c Hc. rewrite AD by auto. pose proof (number_lt (v_order b) (v_shape b) c Hc). rewrite (wv_size b Wb) in Hd. lia.
    - intros c Hc. rewrite AD by auto. apply U; auto. }
  destruct (Nat.eqb_spec (v_size a) (v_size b)) as [EQ|NE].
  - assert (AA : forall k, k < v_size a -> addr a (nth_coord (v_order a) (v_shape a) k) = p + k).
    { intros k Hk. rewrite (addr_simple a k Wa Sa Hk). change (addr a (nth_coord (v_order a) (v_shape a) 0)) with (nth_addr a 0). rewrite (addr_0 a p); auto. }
    destruct (G p m) as (m' & E & L & F' & U & K); auto.
    + specialize (Fa (nth_coord (v_order a) (v_shape a) (v_size a - 1)) (nth_coord_in_shape _ _ _ (wv_pos a Wa))). rewrite AA in Fa by lia. lia.
    + intros c Hc. destruct (Nat.lt_ge_cases (addr b c) p) as [|G1]; auto. destruct (Nat.lt_ge_cases (addr b c) (p + v_size b)); auto.
      exfalso. apply (DJ (nth_coord (v_order a) (v_shape a) (addr b c - p)) c); auto.
      * apply nth_coord_in_shape, (wv_pos a Wa).
      * rewrite AA by lia. lia.
    + rewrite E. cbn [bind]. exists (View (Some p) (v_geo b)), m'. split; [auto|]. split; [auto|]. split; [auto|]. split; [auto|]. split; [auto|].
      split; [lia|]. split; [auto|]. split; [left; auto|]. split; [auto|].
      intros i Hi Hn. apply K. destruct (Nat.lt_ge_cases i p) as [|G1]; auto. destruct (Nat.lt_ge_cases i (p + v_size b)); auto.
      exfalso. apply (Hn (nth_coord (v_order a) (v_shape a) (i - p))); [apply nth_coord_in_shape, (wv_pos a Wa)|]. rewrite AA by lia. lia.
  - cbn [alloc]. destruct (G (length m) (m ++ repeat garbage (v_size b))) as (m' & E & L & F' & U & K).
    + rewrite app_length, repeat_length. auto.
    + intros c Hc. specialize (Fb c Hc). rewrite app_length. lia.
    + intros c Hc. left. apply Fb; auto.
    + unfold alloc. rewrite E. cbn [bind]. exists (View (Some (length m)) (v_geo b)), m'. rewrite app_length in L. split; [auto|]. split; [auto|]. split; [auto|]. split; [auto|]. split; [auto|].
      split; [lia|]. split; [auto|]. split; [right; auto|]. split.
      * intros c Hc. rewrite U by auto. apply nth_error_app1. apply Fb; auto.
      * intros i Hi _. rewrite K by auto. apply nth_error_app1; auto.
Qed.

Lemma marray_copy_ok : forall b m, wf_view b -> v_simple b = true -> fits m b ->
  exists a' m', marray_copy garbage b m = Ret (a', m') /\ wf_view a' /\ v_simple a' = true /\ v_data a' = Some (length m) /\
    v_shape a' = v_shape b /\ v_order a' = v_order b /\ length m' = length m + v_size b /\
    (forall c, in_shape (v_shape b) c -> nth_error m' (addr a' c) = nth_error m (addr b c)) /\
    (forall i, i < length m -> nth_error m' i = nth_error m i).
Proof.
  intros b m Wb Sb Fb. pose proof (size_pos b Wb) as SP. unfold marray_copy.
  destruct (v_data b) as [q|] eqn:Db; [|destruct (wv_data b Wb Db)]. cbn [alloc]. unfold alloc.
  assert (WD : wf_view (View (Some (length m)) (v_geo b))).
  { destruct Wb. constructor; auto. cbn. discriminate. }
  rewrite (copyM_gather b q) by auto.
  destruct (gather_ok b (length m) (m ++ repeat garbage (v_size b)) Wb) as (m' & E & L & U & K).
  - rewrite app_length, repeat_length. auto.
  - intros c Hc. specialize (Fb c Hc). rewrite app_length. lia.
  - intros c Hc. left. apply Fb; auto.
  - rewrite E. cbn [bind]. exists (View (Some (length m)) (v_geo b)), m'. rewrite app_length, repeat_length in L.
    split; [auto|]. split; [auto|]. split; [auto|]. split; [auto|]. split; [auto|]. split; [auto|]. split; [lia|]. split.
    + intros c Hc. rewrite (simple_addr _ (length m)) by (auto; apply in_shape_length; auto).
      change (v_order (View (Some (length m)) (v_geo b))) with (v_order b). change (v_shape (View (Some (length m)) (v_geo b))) with (v_shape b).
      rewrite U by auto. apply nth_error_app1. apply Fb; auto.
    + intros i Hi. rewrite K by auto. apply nth_error_app1; auto.
Qed.

(** Assignment of a view to an array. *)
Lemma marray_assign_view_ok : forall a v (m : memory), wf_view a -> wf_view v -> v_simple a = true -> iterable v -> fits m a -> fits m v ->
  exists a' m', marray_assign_view garbage a v m = Ret (a', m') /\ wf_view a' /\ v_simple a' = true /\
    v_shape a' = v_shape v /\ v_order a' = v_order v /\ length m <= length m' /\ fits m' a' /\
    (forall c, in_shape (v_shape v) c -> nth_error m' (addr a' c) = nth_error m (addr v c)) /\
    (forall i, i < length m -> (forall c, in_shape (v_shape a) c -> addr a c <> i) -> nth_error m' i = nth_error m i).
Proof.
  intros a v m Wa Wv Sa I Fa Fv. pose proof (size_pos v Wv) as SP. pose proof (size_pos a Wa) as SPa. unfold marray_assign_view.
  destruct (v_data v) as [q|] eqn:Dv; [|destruct (wv_data v Wv Dv)].
  destruct (overlaps_spec a v Wa Wv) as (ov & -> & B). cbn [bind]. destruct ov.
  - destruct (marray_of_view_ok v m Wv I Fv) as (m1 & E1 & L1 & U1 & K1). rewrite E1. cbn [bind].
    set (t := array_at (length m) (v_geo v)) in *. assert (Wt : wf_view t) by (apply array_at_wf; auto).
    assert (AT : forall c, in_shape (v_shape v) c -> length m <= addr t c < length m1).
    { intros c Hc. rewrite (simple_addr t (length m)) by (auto; apply in_shape_length; auto).
      pose proof (number_lt (v_order v) (v_shape v) c Hc) as N. rewrite <- (wv_size v Wv) in N.
      change (v_order t) with (v_order v). change (v_shape t) with (v_shape v). lia. }
    destruct (marray_assign_ok a t m1 Wa Wt eq_refl Sa) as (a' & m' & E & W' & S' & Sh' & O' & L' & F' & _ & U' & K').
    + intros c Hc. specialize (Fa c Hc). lia.
    + intros c Hc. apply AT; auto.
    + intros c d Hc Hd Q. specialize (AT d Hd). specialize (Fa c Hc). lia.
    + exists a', m'. split; [auto|]. split; [auto|]. split; [auto|]. split; [auto|]. split; [auto|]. split; [lia|]. split; [auto|]. split.
      * intros c Hc. rewrite U' by auto. apply U1; auto.
      * intros i Hi Hn. rewrite K' by (auto; lia). apply K1; auto.
  - specialize (B eq_refl).
    destruct (v_data a) as [p|] eqn:Da; [|destruct (wv_data a Wa Da)].
    assert (G : forall d (m1 : memory), d + v_size v <= length m1 -> fits m1 v ->
      (forall c, in_shape (v_shape v) c -> addr v c < d \/ d + v_size v <= addr v c) ->
      exists m', (if v_simple v then copyM (fun _ y => y) d q (v_size v) m1
               else if (Nat.leb 1 (v_dim v) && Nat.leb (v_dim v) 10)%bool then
                 s <- at_index v 0 ;;
                 operate2 (fun _ y => y) (g_shape (v_geo v)) (g_shapeStrides (v_geo v)) (g_strides (v_geo v)) (v_dim v) d s m1
               else
                 it <- it_at v 0 ;;
                 ' (_, m2) <- foldM (fun (st : iter * memory) j =>
                     let '(it, m) := st in
                     y <- rdZ m (i_ptr it) ;;
                     m' <- wr m (d + j) y ;;
                     it' <- it_next v it ;;
                     Ret (it', m')) (seq 0 (v_size v)) (it, m1) ;;
                 Ret m2) = Ret m' /\ length m' = length m1 /\ fits m' (array_at d (v_geo v)) /\
       (forall c, in_shape (v_shape v) c -> nth_error m' (addr (array_at d (v_geo v)) c) = nth_error m1 (addr v c)) /\
       (forall i, i < d \/ d + v_size v <= i -> nth_error m' i = nth_error m1 i)).
    { intros d m1 Hd F DJ. set (t := array_at d (v_geo v)). assert (Wt : wf_view t) by (apply array_at_wf; auto).
      assert (AT : forall c, in_shape (v_shape v) c -> addr t c = d + number (v_order v) (v_shape v) c).
      { intros c Hc. apply (simple_addr t d); auto. apply in_shape_length; auto. }
      assert (NB : forall c, in_shape (v_shape v) c -> number (v_order v) (v_shape v) c < v_size v).
      { intros c Hc. rewrite (wv_size v Wv). apply number_lt; auto. }
      assert (FT : forall m' : memory, length m' = length m1 -> fits m' t).
      { intros m' L c Hc. change (v_shape t) with (v_shape v) in Hc. rewrite AT by auto. specialize (NB c Hc). lia. }
      assert (VS : forall m', foldM (step2 (fun _ y => y)) (map (fun j => (d + j, nth_addr v j)) (seq 0 (v_size v))) m1 = Ret m' ->
         length m' = length m1 /\ fits m' t /\
         (forall c, in_shape (v_shape v) c -> nth_error m' (addr t c) = nth_error m1 (addr v c)) /\
         (forall i, i < d \/ d + v_size v <= i -> nth_error m' i = nth_error m1 i)).
      { intros m' E. destruct (gather_ok v d m1 Wv Hd F DJ) as (m2 & E2 & L & U & K). rewrite E in E2. injection E2 as <-.
        split; [auto|]. split; [auto|]. split; [|auto]. intros c Hc. rewrite AT by auto. apply U; auto. }
      destruct (gather_ok v d m1 Wv Hd F DJ) as (m2 & E2 & _). destruct (v_simple v) eqn:S.
      - exists m2. rewrite (copyM_gather v q) by auto. split; [auto|]. apply VS; auto.
      - destruct (Nat.leb 1 (v_dim v) && Nat.leb (v_dim v) 10)%bool eqn:Dm.
        + rewrite at_index_spec by auto. cbn [bind].
          change (g_shapeStrides (v_geo v)) with (v_strides t). change (g_strides (v_geo v)) with (v_strides v). change (g_shape (v_geo v)) with (v_shape v).
          unfold v_dim, g_dim. change (g_shape (v_geo v)) with (v_shape v).
          rewrite operate2_pairs; auto; try apply (wv_pos v Wv); try apply (wv_len v Wv); try (rewrite (wv_len t Wt); auto; fail).
          rewrite !firstn_all2 by (rewrite ?(wv_len t Wt), ?(wv_len v Wv); auto).
          destruct (pairs_by_coord (fun _ y => y) t v m1 (coords (v_shape v)) Wt Wv eq_refl) as (m' & E' & L & U & K).
          * apply coords_NoDup, (wv_pos v Wv).
          * intros c. apply coords_all, (wv_pos v Wv).
          * apply simple_injective; auto.
          * apply FT; auto.
          * auto.
          * intros c c2 Hc Hc2 Q. change (v_shape t) with (v_shape v) in *. rewrite AT in Q by auto. specialize (NB c2 Hc2). destruct (DJ c Hc); lia.
          * exists m'. split.
            { rewrite <- E'. f_equal. apply map_ext. intros c. fold (nth_addr v 0). rewrite (addr_0 v q) by auto. unfold addr. rewrite Dv. reflexivity. }
            split; [auto|]. split; [auto|]. split.
            { intros c Hc. destruct (nth_error_lt m1 (addr t c)) as (x & Ex). { rewrite AT by auto. specialize (NB c Hc). lia. }
              destruct (nth_error_lt m1 (addr v c) (F c Hc)) as (y & Ey). rewrite (U c x y Hc Ex Ey). auto. }
            { intros i Hi. apply K. intros c Hc Q. change (v_shape t) with (v_shape v) in Hc. rewrite AT in Q by auto. specialize (NB c Hc). lia. }
        + destruct (it_at_ok v 0 Wv I SP) as (it & -> & O). cbn [bind].
          destruct (gather_pairs v d Wv I (v_size v) 0 it m1 O) as (it' & E3); [lia|lia|]. rewrite E3, E2. cbn [bind].
          exists m2. split; [auto|]. apply VS; auto. }
    destruct (Nat.eqb_spec (v_size a) (v_size v)) as [EQ|NE].
    + assert (AA : forall k, k < v_size a -> addr a (nth_coord (v_order a) (v_shape a) k) = p + k).
      { intros k Hk. rewrite (addr_simple a k Wa Sa Hk). change (addr a (nth_coord (v_order a) (v_shape a) 0)) with (nth_addr a 0). rewrite (addr_0 a p); auto. }
      destruct (G p m) as (m' & E & L & F' & U & K); auto.
      * specialize (Fa (nth_coord (v_order a) (v_shape a) (v_size a - 1)) (nth_coord_in_shape _ _ _ (wv_pos a Wa))). rewrite AA in Fa by lia. lia.
      * intros c Hc. destruct (Nat.lt_ge_cases (addr v c) p) as [|G1]; auto. destruct (Nat.lt_ge_cases (addr v c) (p + v_size v)); auto.
        exfalso. apply (B (nth_coord (v_order a) (v_shape a) (addr v c - p)) c); auto.
        -- apply nth_coord_in_shape, (wv_pos a Wa).
        -- rewrite AA by lia. lia.
      * rewrite E. cbn [bind]. eexists. exists m'. split; [reflexivity|]. split; [apply array_at_wf; auto|]. split; [auto|]. split; [auto|]. split; [auto|].
        split; [lia|]. split; [auto|]. split; [auto|].
        intros i Hi Hn. apply K. destruct (Nat.lt_ge_cases i p) as [|G1]; auto. destruct (Nat.lt_ge_cases i (p + v_size v)); auto.
        exfalso. apply (Hn (nth_coord (v_order a) (v_shape a) (i - p))); [apply nth_coord_in_shape, (wv_pos a Wa)|]. rewrite AA by lia. lia.
    + cbn [alloc]. destruct (G (length m) (m ++ repeat garbage (v_size v))) as (m' & E & L & F' & U & K).
      * rewrite app_length, repeat_length. auto.
      * intros c Hc. specialize (Fv c Hc). rewrite app_length. lia.
      * intros c Hc. left. apply Fv; auto.
      * unfold alloc. rewrite E. cbn [bind]. eexists. exists m'. rewrite app_length in L. split; [reflexivity|]. split; [apply array_at_wf; auto|]. split; [auto|]. split; [auto|]. split; [auto|].
        split; [lia|]. split; [auto|]. split.
        -- intros c Hc. etransitivity; [exact (U c Hc)|]. apply nth_error_app1. apply Fv; auto.
        -- intros i Hi _. rewrite K by auto. apply nth_error_app1; auto.
Qed.
End Ops.
