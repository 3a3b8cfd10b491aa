(** Proofs about geometries and views. *)
From Coq Require Import Permutation.
From Verif Require Import Base ShapeSpec ShapeProofs MarrayModel MarraySpec.

(** * Sums of products *)
Fixpoint dot (c st : list nat) : nat :=
  match c, st with
  | x :: c', s :: st' => x * s + dot c' st'
  | _, _ => 0
  end.

Lemma dot_app : forall c1 s1 c2 s2, length c1 = length s1 -> dot (c1 ++ c2) (s1 ++ s2) = dot c1 s1 + dot c2 s2.
Proof. induction c1 as [|x c1 IH]; intros [|s s1] c2 s2 H; cbn in *; try discriminate; auto. rewrite IH; lia. Qed.

Lemma dot_rev : forall c s, length c = length s -> dot (rev c) (rev s) = dot c s.
Proof.
  induction c as [|x c IH]; intros [|s st] H; cbn in *; try discriminate; auto.
  rewrite dot_app by (rewrite !rev_length; lia). rewrite IH by lia. cbn. lia.
Qed.

Lemma dotM_aux : forall st c k out, length c = k + length st ->
  forall pre, length pre = k ->
  foldM (fun out j => x <- rd c j ;; s <- rd (pre ++ st) j ;; Ret (out + x * s)) (seq k (length st)) out
  = Ret (out + dot (skipn k c) st).
Proof.
  induction st as [|s st IH]; intros c k out H2 pre Hp; cbn [length seq foldM].
  - destruct (skipn k c); cbn; f_equal; lia.
  - assert (Hk : k < length c) by (cbn in *; lia).
    destruct (nth_error c k) as [x|] eqn:E; [|apply nth_error_None in E; lia].
    unfold rd at 1. rewrite E. cbn [bind]. unfold rd at 1.
    rewrite nth_error_app2 by lia. rewrite Hp, Nat.sub_diag. cbn [nth_error bind].
    replace (pre ++ s :: st) with ((pre ++ [s]) ++ st) by (rewrite <- app_assoc; auto).
    rewrite IH.
    + f_equal. assert (SK : skipn k c = x :: skipn (S k) c).
      { clear -E. revert c E. induction k; intros [|y c] E; cbn in *; try discriminate; [injection E as ->|]; auto. }
      rewrite SK. cbn [dot]. lia.
    + cbn in *. lia.
    + rewrite app_length; cbn; lia.
Qed.

Lemma dotM_spec : forall c st, length c = length st -> dotM c st (length st) = Ret (dot c st).
Proof.
  intros c st H. unfold dotM. pose proof (dotM_aux st c 0 0 H [] eq_refl) as E. cbn [app] in E. rewrite E. auto.
Qed.

(** * Strides *)
Definition spec_strides (o : order) (shape : list nat) : list nat :=
  match o with
  | LastMajor => strides_up 1 shape
  | FirstMajor => rev (strides_up 1 (rev shape))
  end.

Lemma strides_up_length : forall shape t, length (strides_up t shape) = length shape.
Proof. induction shape; intros; cbn; auto. Qed.
Lemma spec_strides_length : forall o shape, length (spec_strides o shape) = length shape.
Proof. intros [] shape; cbn; rewrite ?rev_length, strides_up_length, ?rev_length; auto. Qed.

Lemma stridesFromShape_spec : forall shape o, shape <> [] -> stridesFromShape shape o = Ret (spec_strides o shape).
Proof. intros [|s sh] o H; [congruence|]. destruct o; reflexivity. Qed.

Lemma dot_strides_up : forall shape c t, length c = length shape -> dot c (strides_up t shape) = t * index_of shape c.
Proof.
  induction shape as [|s sh IH]; intros [|x c] t H; cbn in *; try discriminate; try lia.
  rewrite IH by lia. lia.
Qed.
Lemma dot_spec_strides : forall o shape c, length c = length shape -> dot c (spec_strides o shape) = number o shape c.
Proof.
  intros [] shape c H; cbn.
  - rewrite <- (rev_involutive c) at 1. rewrite dot_rev by (rewrite rev_length, strides_up_length, rev_length; auto).
    rewrite dot_strides_up by (rewrite !rev_length; auto). lia.
  - rewrite dot_strides_up by auto. lia.
Qed.

Lemma size_of_app : forall a b, size_of (a ++ b) = size_of a * size_of b.
Proof. induction a; intros; cbn; [unfold size_of; lia|]. fold (size_of (a0 ++ b)) (size_of a0). rewrite IHa. lia. Qed.
Lemma size_of_rev : forall s, size_of (rev s) = size_of s.
Proof. induction s; cbn; auto. rewrite size_of_app, IHs. unfold size_of at 2; cbn. fold (size_of s). lia. Qed.
Lemma size_of_cons : forall x s, size_of (x :: s) = x * size_of s.
Proof. reflexivity. Qed.
Lemma fold_left_mul : forall s a, fold_left Nat.mul s a = a * size_of s.
Proof. induction s; intros; cbn [fold_left]; [unfold size_of; cbn; lia|]. rewrite IHs, size_of_cons. lia. Qed.

Lemma strides_up_app : forall a b t, strides_up t (a ++ b) = strides_up t a ++ strides_up (t * size_of a) b.
Proof.
  induction a; intros; cbn [app strides_up]; [unfold size_of; cbn; rewrite Nat.mul_1_r; auto|].
  rewrite IHa, size_of_cons. cbn. f_equal. f_equal. f_equal. lia.
Qed.

Lemma coord_of_app : forall a b k, positive a -> coord_of (a ++ b) k = coord_of a k ++ coord_of b (k / size_of a).
Proof.
  induction a as [|s a IH]; intros b k H; cbn [app coord_of].
  - unfold size_of; cbn [fold_right]. rewrite Nat.div_1_r; auto.
  - inversion H; subst. rewrite IH, size_of_cons by auto. cbn. f_equal. f_equal.
    rewrite Nat.div_div; auto; [lia|]. pose proof (size_of_pos a H3). lia.
Qed.

Lemma positive_app : forall a b, positive (a ++ b) <-> positive a /\ positive b.
Proof. intros. unfold positive. apply Forall_app. Qed.
Lemma positive_rev : forall a, positive a -> positive (rev a).
Proof. intros a H. unfold positive in *. apply Forall_rev; auto. Qed.

Lemma divs_spec : forall sh k, positive sh -> k < size_of sh -> divs k (rev (strides_up 1 sh)) = Ret (rev (coord_of sh k)).
Proof.
  induction sh as [|s sh IH] using rev_ind; intros k H Hk; [reflexivity|].
  apply positive_app in H. destruct H as [H1 H2]. inversion H2; subst.
  rewrite size_of_app in Hk. unfold size_of at 2 in Hk; cbn in Hk. rewrite Nat.mul_1_r in Hk.
  pose proof (size_of_pos sh H1) as P.
  rewrite strides_up_app, rev_app_distr. cbn [strides_up rev app divs]. rewrite Nat.mul_1_l.
  destruct (Nat.eqb_spec (size_of sh) 0); [lia|].
  rewrite IH by (auto; apply Nat.mod_upper_bound; lia). cbn [bind].
  rewrite coord_of_mod by auto. rewrite coord_of_app by auto. rewrite rev_app_distr. cbn.
  rewrite Nat.mod_small; auto. apply Nat.div_lt_upper_bound; lia.
Qed.

Lemma offs_spec : forall sh st k out, positive sh -> k < size_of sh -> length st = length sh ->
  offs k (rev (strides_up 1 sh)) (rev st) out = Ret (out + dot (coord_of sh k) st).
Proof.
  induction sh as [|s sh IH] using rev_ind; intros st k out H Hk L.
  { destruct st; [|discriminate]. cbn. f_equal; lia. }
  rewrite app_length in L; cbn in L.
  destruct st as [|t st _] using rev_ind; [cbn in L; lia|]. rewrite app_length in L; cbn in L.
  apply positive_app in H. destruct H as [H1 H2]. inversion H2; subst.
  rewrite size_of_app in Hk. unfold size_of at 2 in Hk; cbn in Hk. rewrite Nat.mul_1_r in Hk.
  pose proof (size_of_pos sh H1) as P.
  rewrite strides_up_app, !rev_app_distr. cbn [strides_up rev app offs]. rewrite Nat.mul_1_l.
  destruct (Nat.eqb_spec (size_of sh) 0); [lia|].
  rewrite IH by (auto; try lia; apply Nat.mod_upper_bound; lia).
  rewrite coord_of_mod by auto. rewrite coord_of_app by auto.
  rewrite dot_app by (rewrite coord_of_length; lia). cbn.
  rewrite (Nat.mod_small (k / size_of sh)) by (apply Nat.div_lt_upper_bound; lia). f_equal. lia.
Qed.

(** The coordinates with a given number. *)
Definition nth_coord (o : order) (shape : list nat) (k : nat) : list nat :=
  match o with
  | LastMajor => coord_of shape k
  | FirstMajor => rev (coord_of (rev shape) k)
  end.

Lemma in_shape_rev : forall shape c, in_shape shape c -> in_shape (rev shape) (rev c).
Proof.
  intros shape c H. unfold in_shape in *. induction H; cbn; [constructor|]. apply Forall2_app; auto.
Qed.
Lemma in_shape_rev_iff : forall shape c, in_shape (rev shape) (rev c) -> in_shape shape c.
Proof. intros shape c H. apply in_shape_rev in H. rewrite !rev_involutive in H. auto. Qed.

Lemma number_lt : forall o shape c, in_shape shape c -> number o shape c < size_of shape.
Proof.
  intros [] shape c H; cbn.
  - rewrite <- (size_of_rev shape). apply index_of_lt. apply in_shape_rev; auto.
  - apply index_of_lt; auto.
Qed.
Lemma nth_coord_number : forall o shape c, in_shape shape c -> nth_coord o shape (number o shape c) = c.
Proof.
  intros [] shape c H; cbn.
  - rewrite coord_of_index by (apply in_shape_rev; auto). apply rev_involutive.
  - apply coord_of_index; auto.
Qed.
Lemma number_nth_coord : forall o shape k, positive shape -> k < size_of shape -> number o shape (nth_coord o shape k) = k.
Proof.
  intros [] shape k H Hk; cbn.
  - rewrite rev_involutive. apply index_of_coord; [apply positive_rev; auto|rewrite size_of_rev; auto].
  - apply index_of_coord; auto.
Qed.
Lemma nth_coord_in_shape : forall o shape k, positive shape -> in_shape shape (nth_coord o shape k).
Proof.
  intros [] shape k H; cbn.
  - apply in_shape_rev_iff. rewrite rev_involutive. apply coord_of_in_shape, positive_rev; auto.
  - apply coord_of_in_shape; auto.
Qed.
Lemma nth_coord_length : forall o shape k, length (nth_coord o shape k) = length shape.
Proof. intros [] shape k; cbn; rewrite ?rev_length, coord_of_length, ?rev_length; auto. Qed.
Lemma number_inj : forall o shape c d, in_shape shape c -> in_shape shape d -> number o shape c = number o shape d -> c = d.
Proof. intros o shape c d H1 H2 E. rewrite <- (nth_coord_number o shape c), <- (nth_coord_number o shape d), E; auto. Qed.

(** * Valid views *)
Record wf_view (v : view) : Prop := {
  wv_data : v_data v <> None;
  wv_pos : positive (v_shape v);
  wv_len : length (v_strides v) = length (v_shape v);
  wv_ss : g_shapeStrides (v_geo v) = spec_strides (v_order v) (v_shape v);
  wv_size : v_size v = size_of (v_shape v);
  wv_simple : v_simple v = true -> v_strides v = spec_strides (v_order v) (v_shape v)
}.

Definition addr (v : view) (c : list nat) : nat :=
  match v_data v with Some b => b + dot c (v_strides v) | None => 0 end.

Lemma at_coord_spec : forall v c, wf_view v -> length c = length (v_shape v) -> at_coord v c = Ret (addr v c).
Proof.
  intros v c W L. unfold at_coord, coordinatesToOffset, v_dim, g_dim, addr, deref.
  change (g_shape (v_geo v)) with (v_shape v). rewrite <- (wv_len v W).
  rewrite dotM_spec by (rewrite (wv_len v W); auto). cbn [bind].
  destruct (v_data v) eqn:E; auto. destruct (wv_data v W E).
Qed.

Lemma coordinatesToIndex_spec : forall v c, wf_view v -> length c = length (v_shape v) ->
  coordinatesToIndex v c = Ret (number (v_order v) (v_shape v) c).
Proof.
  intros v c W L. unfold coordinatesToIndex, v_dim, g_dim. change (g_shape (v_geo v)) with (v_shape v).
  rewrite (wv_ss v W). rewrite <- (spec_strides_length (v_order v) (v_shape v)).
  rewrite dotM_spec by (rewrite spec_strides_length; auto). rewrite dot_spec_strides; auto.
Qed.

Lemma indexToCoordinates_spec : forall v k, wf_view v -> v_shape v <> [] -> k < v_size v ->
  indexToCoordinates v k = Ret (nth_coord (v_order v) (v_shape v) k).
Proof.
  intros v k W N Hk. rewrite (wv_size v W) in Hk. pose proof (wv_pos v W) as P.
  unfold indexToCoordinates. rewrite (wv_ss v W). destruct (v_order v) eqn:O; cbn [spec_strides nth_coord].
  - rewrite divs_spec; auto; [apply positive_rev; auto|rewrite size_of_rev; auto].
  - unfold v_dim, g_dim. change (g_shape (v_geo v)) with (v_shape v).
    destruct (Nat.eqb_spec (length (v_shape v)) 0) as [E|E]; [apply length_zero_iff_nil in E; contradiction|].
    rewrite divs_spec by auto. cbn [bind]. rewrite rev_involutive. auto.
Qed.

Lemma at_index_spec : forall v k, wf_view v -> k < v_size v ->
  at_index v k = Ret (addr v (nth_coord (v_order v) (v_shape v) k)).
Proof.
  intros v k W Hk. rewrite (wv_size v W) in Hk. pose proof (wv_pos v W) as P. pose proof (wv_len v W) as L.
  assert (E : indexToOffset v k = Ret (dot (nth_coord (v_order v) (v_shape v) k) (v_strides v))).
  { unfold indexToOffset. destruct (v_simple v) eqn:S.
    - rewrite (wv_simple v W S). rewrite dot_spec_strides by apply nth_coord_length. rewrite number_nth_coord; auto.
    - rewrite (wv_ss v W). destruct (v_order v) eqn:O; cbn [spec_strides nth_coord].
      + rewrite <- (rev_involutive (v_strides v)) at 1.
        rewrite offs_spec; [|apply positive_rev; auto|rewrite size_of_rev; auto|rewrite !rev_length; auto].
        f_equal. cbn. rewrite <- (dot_rev (rev (coord_of (rev (v_shape v)) k))).
        * rewrite rev_involutive. auto.
        * rewrite rev_length, coord_of_length, rev_length. auto.
      + rewrite offs_spec; auto. }
  unfold at_index. rewrite E. cbn [bind]. unfold deref, addr. destruct (v_data v) eqn:D; auto.
  destruct (wv_data v W D).
Qed.

(** * Simplicity *)
Lemma list_eqb_spec : forall a b, list_eqb a b = true <-> a = b.
Proof.
  induction a as [|x a IH]; intros [|y b]; cbn; split; intro H; try discriminate; auto.
  - apply andb_true_iff in H. destruct H as [H1 H2]. apply Nat.eqb_eq in H1. apply IH in H2. congruence.
  - injection H as -> ->. rewrite Nat.eqb_refl. apply IH; auto.
Qed.

Lemma wf_unstrided : forall shape b ext int, positive shape ->
  exists v, view_unstrided shape (Some b) ext int = Ret v /\ wf_view v /\ v_data v = Some b /\
            v_shape v = shape /\ v_order v = int /\ v_strides v = spec_strides ext shape /\
            (shape <> [] -> v_simple v = order_eqb ext int).
Proof.
  intros shape b ext int P. unfold view_unstrided, geo_unstrided. destruct shape as [|s sh].
  - cbn. eexists. split; [reflexivity|]. repeat split; cbn; auto; try discriminate; try (destruct int; auto; fail).
    + destruct ext; auto. + congruence.
  - rewrite !stridesFromShape_spec by discriminate. cbn [bind]. eexists. split; [reflexivity|].
    split; [|repeat split; auto]. constructor; cbn [v_data v_geo v_shape v_strides v_order v_size v_simple g_shape g_strides g_order g_size g_simple g_shapeStrides]; auto.
    + discriminate.
    + apply spec_strides_length.
    + rewrite fold_left_mul. lia.
    + intros E. destruct ext, int; cbn in E; try discriminate; auto.
Qed.

Lemma wf_strided : forall shape strides b int, positive shape -> length strides = length shape ->
  exists v, view_strided shape strides (Some b) int = Ret v /\ wf_view v /\ v_data v = Some b /\
            v_shape v = shape /\ v_order v = int /\ v_strides v = strides /\
            (v_simple v = true <-> strides = spec_strides int shape).
Proof.
  intros shape strides b int P L. unfold view_strided, geo_strided. destruct shape as [|s sh].
  - destruct strides; [|discriminate]. cbn. eexists. split; [reflexivity|]. repeat split; cbn; auto; try discriminate; destruct int; auto.
  - rewrite !stridesFromShape_spec by discriminate. cbn [bind]. eexists. split; [reflexivity|].
    split; [|repeat split; auto].
    + constructor; cbn [v_data v_geo v_shape v_strides v_order v_size v_simple g_shape g_strides g_order g_size g_simple g_shapeStrides updateSimplicity]; auto.
      * discriminate.
      * rewrite fold_left_mul. lia.
      * intros E. apply list_eqb_spec in E. auto.
    + intros E. cbn [v_simple v_geo updateSimplicity g_simple g_shapeStrides g_strides] in E. apply list_eqb_spec in E. auto.
    + intros E. cbn [v_simple v_geo updateSimplicity g_simple g_shapeStrides g_strides]. apply list_eqb_spec. auto.
Qed.

Lemma wf_regeo : forall v shape strides, wf_view v -> shape <> [] -> positive shape -> length strides = length shape ->
  size_of shape = v_size v ->
  exists v', regeo v shape strides = Ret v' /\ wf_view v' /\ v_data v' = v_data v /\
             v_shape v' = shape /\ v_order v' = v_order v /\ v_strides v' = strides.
Proof.
  intros v shape strides W N P L S. unfold regeo. rewrite stridesFromShape_spec by auto. cbn [bind].
  eexists. split; [reflexivity|]. split; [|repeat split; auto].
  constructor; cbn [v_data v_geo v_shape v_strides v_order v_size v_simple g_shape g_strides g_order g_size g_simple g_shapeStrides updateSimplicity]; auto.
  - apply (wv_data v W).
  - intros E. apply list_eqb_spec in E. auto.
Qed.

(** * Selections *)
Lemma in_shape_nth : forall shape c, in_shape shape c <-> length c = length shape /\ forall j, j < length shape -> nth j c 0 < nth j shape 0.
Proof.
  intros shape c. split.
  - intros H. unfold in_shape in H. induction H; cbn; [split; [auto|lia]|]. destruct IHForall2 as [L I]. split; [lia|].
    intros [|j] Hj; auto. apply I. lia.
  - revert c. induction shape as [|s sh IH]; intros [|x c] [L I]; cbn in L; try discriminate; [constructor|].
    constructor; [apply (I 0); cbn; lia|]. apply IH. split; [lia|]. intros j Hj. apply (I (S j)). cbn; lia.
Qed.

Lemma select_seq : forall l, select l (seq 0 (length l)) = l.
Proof.
  intros l. unfold select. apply nth_ext with (d := 0) (d' := 0); rewrite map_length, seq_length; auto.
  intros n Hn. rewrite nth_indep with (d' := nth 0 l 0) by (rewrite map_length, seq_length; auto).
  rewrite (map_nth (fun i => nth i l 0)). rewrite seq_nth by auto. auto.
Qed.

Lemma dot_map : forall A (f g : A -> nat) p, dot (map f p) (map g p) = list_sum (map (fun i => f i * g i) p).
Proof. induction p; cbn; auto. Qed.

Lemma list_sum_perm : forall a b, Permutation a b -> list_sum a = list_sum b.
Proof. intros a b H. unfold list_sum. induction H; cbn; lia. Qed.

Lemma dot_select : forall c st p, length c = length st -> Permutation p (seq 0 (length c)) ->
  dot (select c p) (select st p) = dot c st.
Proof.
  intros c st p L P. unfold select. rewrite dot_map.
  rewrite (list_sum_perm _ (map (fun i => nth i c 0 * nth i st 0) (seq 0 (length c)))) by (apply Permutation_map; auto).
  rewrite <- dot_map. fold (select c (seq 0 (length c))) (select st (seq 0 (length c))).
  rewrite select_seq. rewrite L, select_seq. auto.
Qed.

Lemma size_of_perm : forall a b, Permutation a b -> size_of a = size_of b.
Proof. intros a b H. induction H; rewrite ?size_of_cons; try lia; congruence. Qed.
Lemma select_perm : forall l p, Permutation p (seq 0 (length l)) -> Permutation (select l p) l.
Proof.
  intros l p P. unfold select. rewrite (Permutation_map (fun i => nth i l 0) P).
  fold (select l (seq 0 (length l))). rewrite select_seq. auto.
Qed.
Lemma select_length : forall l p, length (select l p) = length p.
Proof. intros. apply map_length. Qed.
Lemma nth_select : forall l p j, j < length p -> nth j (select l p) 0 = nth (nth j p 0) l 0.
Proof.
  intros l p j H. unfold select. rewrite nth_indep with (d' := nth 0 l 0) by (rewrite map_length; auto).
  apply (map_nth (fun i => nth i l 0)).
Qed.

Lemma mapM_select_aux : forall (l p pre : list nat), Forall (fun i => i < length l) p ->
  mapM (fun j => i <- rd (pre ++ p) j ;; rd l i) (seq (length pre) (length p)) = Ret (select l p).
Proof.
  induction p as [|i p IH]; intros pre H; cbn [length seq mapM]; [reflexivity|].
  apply Forall_cons_iff in H. destruct H as [Hi H].
  unfold rd at 1. rewrite nth_error_app2, Nat.sub_diag by lia. cbn [nth_error bind].
  rewrite (rd_nth _ l i 0) by auto. cbn [bind].
  replace (pre ++ i :: p) with ((pre ++ [i]) ++ p) by (rewrite <- app_assoc; auto).
  replace (S (length pre)) with (length (pre ++ [i])) by (rewrite app_length; cbn; lia).
  rewrite IH; auto.
Qed.
Lemma mapM_select : forall (p l : list nat), Forall (fun i => i < length l) p ->
  mapM (fun j => i <- rd p j ;; rd l i) (seq 0 (length p)) = Ret (select l p).
Proof. intros p l H. apply (mapM_select_aux l p [] H). Qed.

Lemma perm_seq_facts : forall p n, Permutation p (seq 0 n) -> length p = n /\ NoDup p /\ Forall (fun i => i < n) p /\ forall i, i < n -> In i p.
Proof.
  intros p n P. split; [rewrite (Permutation_length P), seq_length; auto|]. split.
  - apply (Permutation_NoDup (Permutation_sym P)), seq_NoDup.
  - split.
    + apply Forall_forall. intros i Hi. apply (Permutation_in _ P) in Hi. apply in_seq in Hi. lia.
    + intros i Hi. apply (Permutation_in _ (Permutation_sym P)). apply in_seq. lia.
Qed.

(** Inverse of a selection by a permutation. *)
Fixpoint pos_of (i : nat) (p : list nat) : nat :=
  match p with
  | [] => 0
  | x :: p' => if Nat.eqb x i then 0 else S (pos_of i p')
  end.
Lemma pos_of_nth : forall p j, NoDup p -> j < length p -> pos_of (nth j p 0) p = j.
Proof.
  induction p as [|x p IH]; intros j H Hj; cbn in Hj; [lia|]. inversion H; subst. destruct j as [|j]; cbn.
  - rewrite Nat.eqb_refl; auto.
  - destruct (Nat.eqb_spec x (nth j p 0)) as [E|E].
    + exfalso. apply H2. rewrite E. apply nth_In. lia.
    + rewrite IH; auto; lia.
Qed.
Lemma nth_pos_of : forall p i, In i p -> pos_of i p < length p /\ nth (pos_of i p) p 0 = i.
Proof.
  induction p as [|x p IH]; intros i H; [destruct H|]. cbn. destruct (Nat.eqb_spec x i) as [->|N]; [cbn; split; [lia|auto]|].
  destruct H as [H|H]; [contradiction|]. destruct (IH i H). cbn. split; [lia|auto].
Qed.

Lemma select_inverse : forall p n c', Permutation p (seq 0 n) -> length c' = n ->
  select (map (fun i => nth (pos_of i p) c' 0) (seq 0 n)) p = c'.
Proof.
  intros p n c' P L. destruct (perm_seq_facts p n P) as (Lp & N & F & _).
  apply nth_ext with (d := 0) (d' := 0); [rewrite select_length; lia|].
  intros j Hj. rewrite select_length in Hj. rewrite nth_select by auto.
  assert (B : nth j p 0 < n) by (rewrite Forall_forall in F; apply F, nth_In; auto).
  rewrite nth_indep with (d' := nth (pos_of 0 p) c' 0) by (rewrite map_length, seq_length; auto).
  rewrite (map_nth (fun i => nth (pos_of i p) c' 0)). rewrite seq_nth by auto. cbn.
  rewrite pos_of_nth; auto.
Qed.

Lemma in_shape_select : forall shape c p, Permutation p (seq 0 (length shape)) -> in_shape shape c -> in_shape (select shape p) (select c p).
Proof.
  intros shape c p P H. destruct (perm_seq_facts _ _ P) as (Lp & _ & F & _). apply in_shape_nth in H. destruct H as [L I].
  apply in_shape_nth. rewrite !select_length. split; auto. intros j Hj. rewrite !nth_select by auto. apply I.
  rewrite Forall_forall in F. apply F, nth_In; auto.
Qed.
Lemma in_shape_unselect : forall shape c' p, Permutation p (seq 0 (length shape)) -> in_shape (select shape p) c' ->
  in_shape shape (map (fun i => nth (pos_of i p) c' 0) (seq 0 (length shape))).
Proof.
  intros shape c' p P H. destruct (perm_seq_facts _ _ P) as (Lp & _ & F & I). apply in_shape_nth in H. destruct H as [L H].
  rewrite select_length in *. apply in_shape_nth. rewrite map_length, seq_length. split; auto.
  intros j Hj. rewrite nth_indep with (d' := nth (pos_of 0 p) c' 0) by (rewrite map_length, seq_length; auto).
  rewrite (map_nth (fun i => nth (pos_of i p) c' 0)). rewrite seq_nth by auto. cbn.
  destruct (nth_pos_of p j (I j Hj)) as [B E]. specialize (H _ B). rewrite nth_select in H by auto. rewrite E in H. auto.
Qed.

(** * One operation *)
Definition step_ok (v : view) (op : vop) (v' : view) : Prop :=
  wf_view v' /\ v_shape v' = shape_after op (v_shape v) /\ v_order v' = order_after op (v_order v) /\
  forall c', in_shape (v_shape v') c' ->
    exists c, in_shape (v_shape v) c /\ same_entry op (v_order v) (v_shape v) c c' /\ addr v' c' = addr v c.

Lemma permute_ok : forall v p, wf_view v -> v_shape v <> [] -> Permutation p (seq 0 (length (v_shape v))) ->
  exists v', permute v p = Ret v' /\ wf_view v' /\ v_shape v' = select (v_shape v) p /\ v_order v' = v_order v /\
  forall c', in_shape (v_shape v') c' ->
    exists c, in_shape (v_shape v) c /\ c' = select c p /\ addr v' c' = addr v c.
Proof.
  intros v p W N P. destruct (perm_seq_facts _ _ P) as (Lp & ND & F & I).
  unfold permute, v_dim, g_dim. change (g_shape (v_geo v)) with (v_shape v). rewrite <- Lp.
  rewrite mapM_select by auto. cbn [bind]. rewrite mapM_select by (rewrite (wv_len v W); auto). cbn [bind].
  destruct (wf_regeo v (select (v_shape v) p) (select (v_strides v) p)) as (v' & E & W' & D & Sh & O & St); auto.
  - intros C. apply (f_equal (@length nat)) in C. rewrite select_length in C. apply N. apply length_zero_iff_nil. cbn in C. lia.
  - unfold positive. apply (Permutation_Forall (Permutation_sym (select_perm _ _ P))). apply (wv_pos v W).
  - rewrite !select_length; auto.
  - rewrite (wv_size v W). apply size_of_perm, select_perm; auto.
  - exists v'. split; [auto|]. split; [auto|]. split; [auto|]. split; [auto|]. intros c' Hc. rewrite Sh in Hc.
    pose proof (in_shape_unselect _ _ _ P Hc) as Hin.
    assert (Es : select (map (fun i => nth (pos_of i p) c' 0) (seq 0 (length (v_shape v)))) p = c').
    { apply select_inverse; auto. apply in_shape_length in Hc. rewrite select_length in Hc. lia. }
    eexists. split; [exact Hin|]. split; [symmetry; exact Es|].
    unfold addr. rewrite D, St. destruct (v_data v); auto. f_equal.
    rewrite <- Es at 1. apply dot_select.
    + rewrite map_length, seq_length, (wv_len v W). auto.
    + rewrite map_length, seq_length. auto.
Qed.

Lemma exchange_perm : forall n a b, a < n -> b < n -> Permutation (map (exchange a b) (seq 0 n)) (seq 0 n).
Proof.
  intros n a b Ha Hb. apply NoDup_Permutation_bis.
  - apply NoDup_map_in; [apply seq_NoDup|]. intros x y _ _ E. unfold exchange in E.
    destruct (Nat.eqb_spec x a), (Nat.eqb_spec y a), (Nat.eqb_spec x b), (Nat.eqb_spec y b); subst; lia.
  - rewrite map_length. auto.
  - intros x Hx. apply in_map_iff in Hx. destruct Hx as (y & E & Hy). apply in_seq in Hy. apply in_seq.
    unfold exchange in E. destruct (Nat.eqb_spec y a), (Nat.eqb_spec y b); lia.
Qed.

Lemma nth_map_seq : forall (f : nat -> nat) n j, j < n -> nth j (map f (seq 0 n)) 0 = f j.
Proof.
  intros f n j H. rewrite (nth_indep _ 0 (f 0)) by (rewrite map_length, seq_length; auto).
  rewrite (map_nth f), seq_nth by auto. auto.
Qed.

Lemma swapM_spec : forall (l : list nat) a b, a < length l -> b < length l ->
  swapM l a b = Ret (select l (map (exchange a b) (seq 0 (length l)))).
Proof.
  intros l a b Ha Hb. unfold swapM. rewrite (rd_nth _ l b 0), (rd_nth _ l a 0) by auto. cbn [bind].
  rewrite wr_Ret by auto. cbn [bind]. rewrite wr_Ret by (rewrite length_upd; auto). f_equal.
  apply nth_ext with (d := 0) (d' := 0); [rewrite select_length, map_length, seq_length, !length_upd; auto|].
  intros j Hj. rewrite !length_upd in Hj. rewrite nth_select by (rewrite map_length, seq_length; auto).
  rewrite nth_map_seq by auto. unfold exchange.
  destruct (Nat.eqb_spec j a) as [->|Na].
  - rewrite nth_upd_eq by (rewrite length_upd; auto). auto.
  - rewrite nth_upd_neq by auto. destruct (Nat.eqb_spec j b) as [->|Nb]; [rewrite nth_upd_eq; auto|rewrite nth_upd_neq; auto].
Qed.

Lemma rev_loop : forall (l : list nat) k, k <= length l / 2 ->
  exists l', foldM (fun l0 j => swapM l0 (length l - j - 1) j) (seq 0 k) l = Ret l' /\ length l' = length l /\
  forall j, j < length l -> nth j l' 0 = if (j <? k) || (length l - k <=? j) then nth (length l - 1 - j) l 0 else nth j l 0.
Proof.
  intros l k. induction k as [|k IH]; intros Hk.
  - exists l. repeat split; auto. intros j Hj. destruct (Nat.ltb_spec j 0), (Nat.leb_spec (length l - 0) j); cbn [orb]; auto; lia.
  - destruct IH as (l1 & E & L & N); [lia|]. rewrite seq_S, foldM_app, E. cbn [bind foldM Nat.add].
    pose proof (Nat.div_mod (length l) 2). pose proof (Nat.mod_upper_bound (length l) 2).
    assert (Hb : S k <= length l - S k) by lia.
    rewrite swapM_spec by lia. cbn [bind]. eexists. split; [reflexivity|].
    rewrite select_length, map_length, seq_length. split; auto. intros j Hj.
    rewrite nth_select by (rewrite map_length, seq_length; lia).
    rewrite nth_map_seq by lia. unfold exchange.
    destruct (Nat.eqb_spec j (length l - k - 1)) as [E1|E1].
    + rewrite N by lia. destruct (Nat.ltb_spec j (S k)), (Nat.leb_spec (length l - S k) j); cbn [orb]; try lia;
      destruct (Nat.ltb_spec k k), (Nat.leb_spec (length l - k) k); cbn [orb]; try lia; f_equal; lia.
    + destruct (Nat.eqb_spec j k) as [E2|E2].
      * rewrite N by lia. destruct (Nat.ltb_spec (length l - k - 1) k), (Nat.leb_spec (length l - k) (length l - k - 1)); cbn [orb]; try lia.
        destruct (Nat.ltb_spec j (S k)); cbn [orb]; try lia. f_equal; lia.
      * rewrite N by lia. destruct (Nat.ltb_spec j k), (Nat.leb_spec (length l - k) j), (Nat.ltb_spec j (S k)), (Nat.leb_spec (length l - S k) j); cbn [orb]; auto; lia.
Qed.

Lemma rev_loop_spec : forall l : list nat, foldM (fun l0 j => swapM l0 (length l - j - 1) j) (seq 0 (length l / 2)) l = Ret (rev l).
Proof.
  intros l. destruct (rev_loop l (length l / 2) (le_n _)) as (l' & E & L & N). rewrite E. f_equal.
  apply nth_ext with (d := 0) (d' := 0); [rewrite rev_length; auto|]. intros j Hj. rewrite L in Hj.
  rewrite N, rev_nth by auto. replace (length l - S j) with (length l - 1 - j) by lia.
  pose proof (Nat.div_mod (length l) 2). pose proof (Nat.mod_upper_bound (length l) 2).
  destruct (Nat.ltb_spec j (length l / 2)), (Nat.leb_spec (length l - length l / 2) j); cbn [orb]; auto. f_equal; lia.
Qed.

Lemma select_rev : forall l, select l (rev (seq 0 (length l))) = rev l.
Proof. intros l. unfold select. rewrite map_rev. fold (select l (seq 0 (length l))). rewrite select_seq. auto. Qed.

Lemma regeo_permute : forall v p, wf_view v -> Permutation p (seq 0 (length (v_shape v))) ->
  regeo v (select (v_shape v) p) (select (v_strides v) p) = permute v p.
Proof.
  intros v p W P. destruct (perm_seq_facts _ _ P) as (Lp & ND & F & I). unfold permute, v_dim, g_dim.
  change (g_shape (v_geo v)) with (v_shape v). rewrite <- Lp.
  rewrite mapM_select by auto. cbn [bind]. rewrite mapM_select by (rewrite (wv_len v W); auto). auto.
Qed.

Lemma rotated_perm : forall n d, 0 < d -> Permutation (map (rotated n d) (seq 0 d)) (seq 0 d).
Proof.
  intros n d Hd. apply NoDup_Permutation_bis.
  - apply NoDup_map_in; [apply seq_NoDup|]. intros x y Hx Hy E. apply in_seq in Hx, Hy. unfold rotated in E.
    pose proof (Z.mod_pos_bound (Z.of_nat x - n) (Z.of_nat d)). pose proof (Z.mod_pos_bound (Z.of_nat y - n) (Z.of_nat d)).
    assert (E' : ((Z.of_nat x - n) mod Z.of_nat d = (Z.of_nat y - n) mod Z.of_nat d)%Z) by lia.
    pose proof (Z.div_mod (Z.of_nat x - n) (Z.of_nat d)). pose proof (Z.div_mod (Z.of_nat y - n) (Z.of_nat d)).
    remember ((Z.of_nat x - n) / Z.of_nat d)%Z as q1. remember ((Z.of_nat y - n) / Z.of_nat d)%Z as q2.
    assert (Z.of_nat x - Z.of_nat y = Z.of_nat d * (q1 - q2))%Z by lia. assert (q1 = q2) by nia. subst q2. nia.
  - rewrite map_length; auto.
  - intros x Hx. apply in_map_iff in Hx. destruct Hx as (y & E & Hy). apply in_seq. unfold rotated in E.
    pose proof (Z.mod_pos_bound (Z.of_nat y - n) (Z.of_nat d)). lia.
Qed.

Lemma shift_spec : forall v n, v_shape v <> [] -> shift v n = permute v (map (rotated n (length (v_shape v))) (seq 0 (length (v_shape v)))).
Proof.
  intros v n N. unfold shift, shift1, shift0, v_dim, g_dim. change (g_shape (v_geo v)) with (v_shape v).
  assert (Hd : 0 < length (v_shape v)) by (destruct (v_shape v); [congruence|cbn; lia]).
  set (d := length (v_shape v)) in *.
  assert (M : forall n', (n' mod Z.of_nat d = n mod Z.of_nat d)%Z ->
              permute v (map (fun j => Z.to_nat ((Z.of_nat j - n') mod Z.of_nat d)) (seq 0 d)) = permute v (map (rotated n d) (seq 0 d))).
  { intros n' E. f_equal. apply map_ext. intros j. unfold rotated. f_equal. rewrite Zminus_mod, E, <- Zminus_mod. auto. }
  assert (A : ((n - Z.of_nat d) mod Z.of_nat d = n mod Z.of_nat d)%Z).
  { replace (n - Z.of_nat d)%Z with (n + (-1) * Z.of_nat d)%Z by lia. apply Z.mod_add. lia. }
  assert (B : (Z.rem n (Z.of_nat d) mod Z.of_nat d = n mod Z.of_nat d)%Z).
  { pose proof (Z.quot_rem' n (Z.of_nat d)) as Q. rewrite Q at 2. rewrite Z.add_comm, Z.mul_comm. symmetry. apply Z.mod_add. lia. }
  assert (C : ((Z.rem n (Z.of_nat d) - Z.of_nat d) mod Z.of_nat d = n mod Z.of_nat d)%Z).
  { rewrite <- B. replace (Z.rem n (Z.of_nat d) - Z.of_nat d)%Z with (Z.rem n (Z.of_nat d) + (-1) * Z.of_nat d)%Z by lia. apply Z.mod_add. lia. }
  cbv zeta. destruct ((n <=? - Z.of_nat d)%Z || (Z.of_nat d <=? n)%Z).
  - destruct (Z.eqb_spec (Z.of_nat d) 0); [lia|]. destruct (0 <? Z.rem n (Z.of_nat d))%Z; apply M; auto.
  - destruct (0 <? n)%Z; apply M; auto.
Qed.

(** Sub-views *)
Lemma mapM_rd_aux : forall l pre : list nat, mapM (rd (pre ++ l)) (seq (length pre) (length l)) = Ret l.
Proof.
  induction l as [|x l IH]; intros pre; cbn [length seq mapM]; [reflexivity|].
  unfold rd at 1. rewrite nth_error_app2, Nat.sub_diag by lia. cbn [nth_error bind].
  replace (pre ++ x :: l) with ((pre ++ [x]) ++ l) by (rewrite <- app_assoc; auto).
  replace (S (length pre)) with (length (pre ++ [x])) by (rewrite app_length; cbn; lia). rewrite IH. auto.
Qed.
Lemma mapM_rd_all : forall l : list nat, mapM (rd l) (seq 0 (length l)) = Ret l.
Proof. intros l. apply (mapM_rd_aux l []). Qed.

Lemma dot_add : forall b c st, length b = length st -> length c = length st ->
  dot (map (fun p => fst p + snd p) (combine b c)) st = dot b st + dot c st.
Proof.
  induction b as [|x b IH]; intros [|y c] [|s st] H1 H2; cbn in *; try discriminate; auto. rewrite IH by lia. lia.
Qed.
Lemma nth_add : forall b c j, length b = length c -> j < length b -> nth j (map (fun p => fst p + snd p) (combine b c)) 0 = nth j b 0 + nth j c 0.
Proof. induction b as [|x b IH]; intros [|y c] [|j] H Hj; cbn in *; try discriminate; try lia. apply IH; lia. Qed.

Lemma sub_ok : forall v b s o, wf_view v -> legal_op v (OpSub b s o) ->
  exists v', sub_view v b s o = Ret v' /\ step_ok v (OpSub b s o) v'.
Proof.
  intros v b s o W (Lb & Ls & P & I). unfold sub_view, coordinatesToOffset, v_dim, g_dim.
  change (g_shape (v_geo v)) with (v_shape v).
  destruct (v_data v) as [base|] eqn:D; [|destruct (wv_data v W D)].
  rewrite <- (wv_len v W). rewrite dotM_spec by (rewrite (wv_len v W); auto). cbn [bind shift_ptr].
  rewrite (wv_len v W), <- Ls, mapM_rd_all. cbn [bind].
  destruct (wf_strided s (v_strides v) (base + dot b (v_strides v)) o) as (v' & E & W' & D' & Sh & O & St & _); auto.
  { rewrite (wv_len v W); auto. }
  exists v'. split; auto. split; [auto|]. split; [rewrite Sh; auto|]. split; [auto|].
  rewrite Sh. intros c' Hc. exists (map (fun p => fst p + snd p) (combine b c')).
  pose proof Hc as Hc2. apply in_shape_nth in Hc2. destruct Hc2 as [Lc Ic]. split; [|split; [reflexivity|]].
  - apply in_shape_nth. rewrite map_length, combine_length. split; [lia|]. intros j Hj. rewrite nth_add by lia.
    specialize (Ic j ltac:(lia)). specialize (I j Hj). lia.
  - unfold addr. rewrite D, D', St. rewrite dot_add by (rewrite (wv_len v W); lia). lia.
Qed.

(** Reshaping *)
Lemma reshape_ok : forall v s, wf_view v -> legal_op v (OpReshape s) ->
  exists v', reshape v s = Ret v' /\ step_ok v (OpReshape s) v'.
Proof.
  intros v s W (Si & P & Z). unfold reshape. destruct (v_data v) as [base|] eqn:D; [|destruct (wv_data v W D)].
  destruct (wf_unstrided s base (v_order v) (v_order v) P) as (v' & E & W' & D' & Sh & O & St & Sm).
  exists v'. split; auto. split; [auto|]. split; [auto|]. split; [auto|].
  rewrite Sh. intros c' Hc. exists (nth_coord (v_order v) (v_shape v) (number (v_order v) s c')).
  pose proof (number_lt (v_order v) s c' Hc) as Lt.
  assert (NN : number (v_order v) (v_shape v) (nth_coord (v_order v) (v_shape v) (number (v_order v) s c')) = number (v_order v) s c').
  { apply number_nth_coord; [apply (wv_pos v W)|lia]. }
  split; [apply nth_coord_in_shape, (wv_pos v W)|]. split; [exact NN|].
  unfold addr. rewrite D, D', St, (wv_simple v W Si). rewrite !dot_spec_strides; [rewrite NN; auto|apply nth_coord_length|apply in_shape_length; auto].
Qed.

(** Binding *)
Lemma drop_at_length : forall A (l : list A) d, d < length l -> length (drop_at d l) = length l - 1.
Proof. intros A l d H. unfold drop_at. rewrite app_length, firstn_length, skipn_length. lia. Qed.
Lemma split_at : forall A (l : list A) d (z : A), d < length l -> l = firstn d l ++ nth d l z :: skipn (S d) l.
Proof. induction l as [|x l IH]; intros [|d] z H; cbn in *; try lia; auto. f_equal. apply IH. lia. Qed.

Lemma in_shape_app : forall s1 s2 c, in_shape (s1 ++ s2) c ->
  in_shape s1 (firstn (length s1) c) /\ in_shape s2 (skipn (length s1) c).
Proof.
  induction s1 as [|s s1 IH]; intros s2 c H; cbn; [split; [constructor|auto]|]. inversion H; subst. apply IH in H4.
  destruct H4. cbn. split; auto. constructor; auto.
Qed.
Lemma in_shape_app_intro : forall s1 s2 c1 c2, in_shape s1 c1 -> in_shape s2 c2 -> in_shape (s1 ++ s2) (c1 ++ c2).
Proof. intros. apply Forall2_app; auto. Qed.

Lemma bound_ok : forall v d x, wf_view v -> legal_op v (OpBound d x) ->
  exists v', boundView v d x = Ret v' /\ step_ok v (OpBound d x) v'.
Proof.
  intros v d x W (Hd & Hx). pose proof (wv_pos v W) as P. pose proof (wv_len v W) as L.
  destruct (v_data v) as [base|] eqn:D; [|destruct (wv_data v W D)].
  unfold boundView, v_dim, g_dim. change (g_shape (v_geo v)) with (v_shape v).
  destruct (Nat.eqb_spec (length (v_shape v)) 1) as [E1|E1].
  - destruct (v_shape v) as [|s [|]] eqn:Sh; try discriminate. assert (d = 0) by (cbn in Hd; lia). subst d. cbn in Hx.
    rewrite at_index_spec; auto; [|rewrite (wv_size v W), Sh; cbn; lia]. cbn [bind]. eexists. split; [reflexivity|].
    split; [|split; [|split]].
    + constructor; cbn; auto; try discriminate; try constructor; destruct (v_order v); auto.
    + cbn. rewrite Sh. reflexivity.
    + reflexivity.
    + cbn [v_shape v_geo geo_scalar g_shape]. intros c' Hc. inversion Hc; subst. exists [x]. rewrite Sh. split; [repeat constructor; auto|].
      split; [reflexivity|]. unfold addr at 1. cbn. rewrite Nat.add_0_r. f_equal.
      destruct (v_order v); cbn; rewrite Nat.mod_small by auto; auto.
  - rewrite (rd_nth _ _ d 0) by auto. cbn [bind]. rewrite (rd_nth _ _ d 0) by (rewrite L; auto). cbn [bind].
    assert (NE : drop_at d (v_shape v) <> []).
    { intros C. apply (f_equal (@length nat)) in C. rewrite drop_at_length in C by auto. cbn in C. lia. }
    rewrite stridesFromShape_spec by auto. cbn [bind shift_ptr].
    assert (SP : v_shape v = firstn d (v_shape v) ++ nth d (v_shape v) 0 :: skipn (S d) (v_shape v)) by (apply split_at; auto).
    assert (ST : v_strides v = firstn d (v_strides v) ++ nth d (v_strides v) 0 :: skipn (S d) (v_strides v)) by (apply split_at; lia).
    pose proof P as P2. rewrite SP in P2. apply positive_app in P2. destruct P2 as [Pa Pb]. apply Forall_cons_iff in Pb. destruct Pb as [Pc Pb].
    rewrite D. cbn [shift_ptr bind]. destruct (Nat.eqb_spec (nth d (v_shape v) 0) 0); [lia|]. eexists. split; [reflexivity|]. split; [|split; [|split]].
    + constructor; cbn [v_data v_geo v_shape v_strides v_order v_size v_simple g_shape g_strides g_order g_size g_simple g_shapeStrides updateSimplicity]; auto.
      * discriminate.
      * unfold drop_at. apply positive_app. auto.
      * rewrite !drop_at_length; auto; lia.
      * change (g_size (v_geo v)) with (v_size v). rewrite (wv_size v W). rewrite SP at 1. unfold drop_at.
        rewrite !size_of_app, size_of_cons. replace (size_of (firstn d (v_shape v)) * (nth d (v_shape v) 0 * size_of (skipn (S d) (v_shape v)))) with
          (size_of (firstn d (v_shape v)) * size_of (skipn (S d) (v_shape v)) * nth d (v_shape v) 0) by lia. apply Nat.div_mul. auto.
      * intros E. apply list_eqb_spec in E. auto.
    + reflexivity.
    + reflexivity.
    + cbn [v_shape v_geo updateSimplicity g_shape]. unfold drop_at. intros c' Hc. apply in_shape_app in Hc.
      rewrite firstn_length, Nat.min_l in Hc by lia. destruct Hc as [Hc1 Hc2].
      exists (firstn d c' ++ x :: skipn d c'). split; [|split; [reflexivity|]].
      * rewrite SP at 1. apply in_shape_app_intro; auto. constructor; auto.
      * unfold addr. rewrite D. cbn [v_data v_strides v_geo updateSimplicity g_strides].
        pose proof (in_shape_length _ _ Hc1) as L1. rewrite (firstn_length d (v_shape v)) in L1.
        assert (L2 : length (firstn d c') = length (firstn d (v_strides v))) by (rewrite (firstn_length d (v_strides v)); lia).
        assert (G1 : dot (firstn d c' ++ x :: skipn d c') (v_strides v) = dot (firstn d c') (firstn d (v_strides v)) + (x * nth d (v_strides v) 0 + dot (skipn d c') (skipn (S d) (v_strides v)))).
        { rewrite ST at 1. rewrite dot_app by auto. reflexivity. }
        assert (G2 : dot c' (drop_at d (v_strides v)) = dot (firstn d c') (firstn d (v_strides v)) + dot (skipn d c') (skipn (S d) (v_strides v))).
        { rewrite <- (firstn_skipn d c') at 1. unfold drop_at. apply dot_app; auto. }
        unfold drop_at in G2. lia.
Qed.

(** Squeezing *)
Fixpoint unsqueeze (shape c : list nat) : list nat :=
  match shape with
  | [] => []
  | s :: sh => if Nat.eqb s 1 then 0 :: unsqueeze sh c
               else match c with x :: c' => x :: unsqueeze sh c' | [] => [] end
  end.
Definition not1 (s : nat) : bool := negb (Nat.eqb s 1).

Lemma kept_shape : forall (shape l : list nat), length l = length shape ->
  map fst (filter (fun p => not1 (fst p)) (combine shape l)) = filter not1 shape.
Proof.
  induction shape as [|s sh IH]; intros [|x l] H; cbn in *; try discriminate; auto. destruct (not1 s); cbn; rewrite IH by lia; auto.
Qed.

Lemma unsqueeze_spec : forall shape c' st, in_shape (filter not1 shape) c' -> length st = length shape ->
  in_shape shape (unsqueeze shape c') /\
  c' = map snd (filter (fun p => not1 (fst p)) (combine shape (unsqueeze shape c'))) /\
  dot c' (map snd (filter (fun p => not1 (fst p)) (combine shape st))) = dot (unsqueeze shape c') st.
Proof.
  induction shape as [|s sh IH]; intros c' [|t st] H L; cbn in L; try discriminate.
  - inversion H; subst. repeat split; constructor.
  - cbn [filter unsqueeze combine] in *. unfold not1 in *. destruct (Nat.eqb_spec s 1) as [->|N]; cbn [negb fst] in *.
    + destruct (IH c' st H ltac:(lia)) as (A & B & C). cbn. split; [constructor; auto|]. split; auto.
    + inversion H; subst. destruct (IH l st H4 ltac:(lia)) as (A & B & C). cbn [combine filter fst].
      destruct (Nat.eqb_spec s 1); [contradiction|]. cbn [negb map snd dot]. split; [constructor; auto|]. split; [f_equal; auto|]. lia.
Qed.

Lemma size_of_filter : forall shape, size_of (filter not1 shape) = size_of shape.
Proof.
  induction shape as [|s sh IH]; auto. cbn [filter]. unfold not1 at 1.
  destruct (Nat.eqb_spec s 1) as [->|]; cbn [negb]; rewrite !size_of_cons; lia.
Qed.
Lemma filter_full : forall A (f : A -> bool) l, length (filter f l) = length l -> filter f l = l.
Proof.
  induction l as [|x l IH]; cbn; auto. destruct (f x); cbn; intros H; [f_equal; apply IH; lia|].
  exfalso. assert (length (filter f l) <= length l) by (clear; induction l; cbn; auto; destruct (f a); cbn; lia). lia.
Qed.

Lemma squeeze_ok : forall v, wf_view v -> exists v', squeeze v = Ret v' /\ step_ok v OpSqueeze v'.
Proof.
  intros v W. pose proof (wv_pos v W) as P. pose proof (wv_len v W) as L.
  unfold squeeze, v_dim, g_dim. change (g_shape (v_geo v)) with (v_shape v).
  change (fun p : nat * nat => negb (fst p =? 1)) with (fun p : nat * nat => not1 (fst p)).
  set (kept := filter (fun p => not1 (fst p)) (combine (v_shape v) (v_strides v))).
  assert (KS : map fst kept = filter not1 (v_shape v)) by (apply kept_shape; auto).
  assert (KL : length kept = length (filter not1 (v_shape v))) by (rewrite <- KS, map_length; auto).
  assert (PK : positive (filter not1 (v_shape v))).
  { unfold positive in *. rewrite Forall_forall in *. intros x Hx. apply filter_In in Hx. apply P. tauto. }
  assert (Back : forall c', in_shape (filter not1 (v_shape v)) c' ->
      exists c, in_shape (v_shape v) c /\ same_entry OpSqueeze (v_order v) (v_shape v) c c' /\ dot c' (map snd kept) = dot c (v_strides v)).
  { intros c' Hc. destruct (unsqueeze_spec (v_shape v) c' (v_strides v) Hc L) as (A & B & C).
    exists (unsqueeze (v_shape v) c'). repeat split; auto. }
  destruct (Nat.eqb_spec (length kept) (length (v_shape v))) as [E|E].
  - exists v. split; auto. rewrite KL in E. apply filter_full in E.
    split; [auto|]. split; [cbn; change (fun s : nat => negb (s =? 1)) with not1; auto|]. split; [auto|].
    intros c' Hc. rewrite <- E in Hc. destruct (Back c' Hc) as (c & A & B & C). exists c. repeat split; auto.
    cbn in B. unfold addr. destruct (v_data v); auto. f_equal. rewrite E in KS.
    assert (KE : kept = combine (v_shape v) (v_strides v)).
    { unfold kept. apply filter_full. fold kept. rewrite KL, E, combine_length. lia. }
    rewrite KE in C. rewrite <- C. f_equal. clear -L. revert L. generalize (v_shape v) (v_strides v).
    induction l as [|x l IH]; intros [|y l0] L; cbn in *; try discriminate; auto. f_equal; auto.
  - destruct (Nat.eqb_spec (length kept) 0) as [E0|E0].
    + eexists. split; [reflexivity|]. assert (F0 : filter not1 (v_shape v) = []) by (apply length_zero_iff_nil; lia).
      split; [|split; [|split]].
      * constructor; cbn; auto; try (destruct (v_order v); auto; fail). -- apply (wv_data v W). -- constructor.
      * cbn. change (fun s : nat => negb (s =? 1)) with not1. auto.
      * reflexivity.
      * cbn. intros c' Hc. rewrite <- F0 in Hc. destruct (Back c' Hc) as (c & A & B & C). exists c. repeat split; auto.
        unfold addr. cbn. destruct (v_data v); auto. rewrite <- C. destruct kept; [cbn; destruct c'; auto|cbn in E0; lia].
    + assert (NE : filter not1 (v_shape v) <> []) by (intros C; rewrite C in KL; cbn in KL; lia).
      rewrite KS, stridesFromShape_spec by auto. cbn [bind]. eexists. split; [reflexivity|]. split; [|split; [|split]].
      * constructor; cbn [v_data v_geo v_shape v_strides v_order v_size v_simple g_shape g_strides g_order g_size g_simple g_shapeStrides updateSimplicity]; auto.
        -- apply (wv_data v W).
        -- rewrite map_length; auto.
        -- change (g_size (v_geo v)) with (v_size v). rewrite size_of_filter. apply (wv_size v W).
        -- intros E2. apply list_eqb_spec in E2. auto.
      * reflexivity.
      * reflexivity.
      * cbn [v_shape v_geo updateSimplicity g_shape]. intros c' Hc. destruct (Back c' Hc) as (c & A & B & C).
        exists c. repeat split; auto. unfold addr. cbn [v_data v_strides v_geo updateSimplicity g_strides]. rewrite C. auto.
Qed.

Lemma step_spec : forall v op, wf_view v -> legal_op v op -> exists v', vstep v op = Ret v' /\ step_ok v op v'.
Proof.
  intros v op W Lg. destruct op; cbn [vstep].
  - apply sub_ok; auto.
  - apply reshape_ok; auto.
  - apply bound_ok; auto.
  - apply squeeze_ok; auto.
  - destruct Lg as [N P]. destruct (permute_ok v p W N P) as (v' & E & H). exists v'. split; auto.
  - destruct Lg as [Ha Hb]. assert (N : v_shape v <> []) by (intros C; rewrite C in Ha; cbn in Ha; lia).
    unfold transpose2. rewrite swapM_spec by auto. cbn [bind]. rewrite swapM_spec by (rewrite (wv_len v W); auto). cbn [bind].
    rewrite (wv_len v W). rewrite regeo_permute by (auto using exchange_perm).
    destruct (permute_ok v _ W N (exchange_perm _ _ _ Ha Hb)) as (v' & E & H). exists v'. split; auto.
  - unfold transpose, v_dim, g_dim. change (g_shape (v_geo v)) with (v_shape v). rewrite rev_loop_spec. cbn [bind].
    rewrite <- (wv_len v W). rewrite rev_loop_spec. cbn [bind]. cbn in Lg.
    assert (PR : Permutation (rev (seq 0 (length (v_shape v)))) (seq 0 (length (v_shape v)))) by (symmetry; apply Permutation_rev).
    rewrite <- (select_rev (v_shape v)), <- (select_rev (v_strides v)). rewrite (wv_len v W).
    rewrite regeo_permute by auto.
    destruct (permute_ok v _ W Lg PR) as (v' & E & W' & Sh & O & H). exists v'. split; auto. split; [auto|]. split; [rewrite Sh; apply select_rev|]. split; [auto|].
    intros c' Hc. destruct (H c' Hc) as (c & A & B & C). exists c. split; auto. split; auto. cbn. rewrite B.
    rewrite <- (in_shape_length _ _ A). apply select_rev.
  - cbn in Lg. rewrite shift_spec by auto. assert (Hd : 0 < length (v_shape v)) by (destruct (v_shape v); [congruence|cbn; lia]).
    destruct (permute_ok v _ W Lg (rotated_perm n _ Hd)) as (v' & E & H). exists v'. split; auto.
Qed.

Lemma run_spec : forall ops v, wf_view v -> legal_ops v ops ->
  exists v', vrun ops v = Ret v' /\ wf_view v' /\ v_shape v' = shape_run ops (v_shape v) /\ v_order v' = order_run ops (v_order v) /\
  forall c', in_shape (v_shape v') c' ->
    exists c, in_shape (v_shape v) c /\ same_entry_run ops (v_order v) (v_shape v) c c' /\ addr v' c' = addr v c.
Proof.
  induction ops as [|op ops IH]; intros v W Lg.
  - exists v. split; [auto|]. split; [auto|]. split; [auto|]. split; [auto|]. intros c' Hc. exists c'. repeat split; auto.
  - destruct Lg as [L1 L2]. destruct (step_spec v op W L1) as (v1 & E1 & W1 & S1 & O1 & H1).
    destruct (IH v1 W1 (L2 v1 E1)) as (v2 & E2 & W2 & S2 & O2 & H2). exists v2. unfold vrun in *. cbn [foldM]. rewrite E1. cbn [bind].
    split; auto. split; auto. split; [rewrite S2, S1; auto|]. split; [rewrite O2, O1; auto|].
    intros c' Hc. destruct (H2 c' Hc) as (d & A & B & C). destruct (H1 d A) as (c & A' & B' & C').
    exists c. split; auto. split; [|congruence]. cbn. exists d. rewrite <- S1, <- O1. auto.
Qed.

(** Different coordinates of a derived view name different entries. *)
Lemma same_entry_inj : forall v op c d d', wf_view v -> legal_op v op ->
  in_shape (shape_after op (v_shape v)) d -> in_shape (shape_after op (v_shape v)) d' ->
  same_entry op (v_order v) (v_shape v) c d -> same_entry op (v_order v) (v_shape v) c d' -> d = d'.
Proof.
  intros v op c d d' W Lg I1 I2 H1 H2. destruct op; cbn [same_entry shape_after legal_op] in *; try congruence.
  - destruct Lg as (Lb & Ls & P & I). apply in_shape_length in I1, I2. rewrite H1 in H2.
    apply nth_ext with (d := 0) (d' := 0); [lia|]. intros j Hj. apply (f_equal (fun l => nth j l 0)) in H2.
    rewrite !nth_add in H2 by lia. lia.
  - apply (number_inj (v_order v) shape); auto; congruence.
  - destruct Lg as (Hd & Hx). apply in_shape_length in I1, I2.
    rewrite app_length, firstn_length, skipn_length in I1, I2. rewrite H1 in H2.
    apply (f_equal (fun l => firstn dimension l ++ skipn (S dimension) l)) in H2. cbv beta in H2.
    assert (G : forall e, length e = length d -> firstn dimension (firstn dimension e ++ value :: skipn dimension e) ++ skipn (S dimension) (firstn dimension e ++ value :: skipn dimension e) = e).
    { intros e Le. rewrite firstn_app, skipn_app, firstn_firstn, firstn_length.
      replace (dimension - Nat.min dimension (length e)) with 0 by lia. rewrite Nat.min_id.
      replace (S dimension - Nat.min dimension (length e)) with 1 by lia.
      rewrite (skipn_all2 (firstn dimension e)) by (rewrite firstn_length; lia). rewrite firstn_O, app_nil_r. cbn [app]. change (skipn 1 (value :: skipn dimension e)) with (skipn dimension e). apply firstn_skipn. }
    rewrite !G in H2 by lia. auto.
Qed.

Lemma run_inj : forall ops v c d d', wf_view v -> legal_ops v ops ->
  in_shape (shape_run ops (v_shape v)) d -> in_shape (shape_run ops (v_shape v)) d' ->
  same_entry_run ops (v_order v) (v_shape v) c d -> same_entry_run ops (v_order v) (v_shape v) c d' -> d = d'.
Proof.
  induction ops as [|op ops IH]; intros v c d d' W Lg I1 I2 H1 H2; cbn in *; [congruence|].
  destruct Lg as [L1 L2]. destruct (step_spec v op W L1) as (v1 & E1 & W1 & S1 & O1 & _).
  destruct H1 as (e & Ie & A & B). destruct H2 as (e' & Ie' & A' & B').
  assert (EE : e = e') by exact (same_entry_inj v op c e e' W L1 Ie Ie' A A'). subst e'.
  rewrite <- S1 in I1, I2, B, B'. rewrite <- O1 in B, B'. exact (IH v1 e d d' W1 (L2 v1 E1) I1 I2 B B').
Qed.

(** Operations that keep all entries. *)
Lemma in_shape_filter : forall shape c, in_shape shape c ->
  in_shape (filter not1 shape) (map snd (filter (fun p => not1 (fst p)) (combine shape c))).
Proof.
  intros shape c H. unfold in_shape in *. induction H as [|x s c sh Hx H IH]; cbn; [constructor|].
  destruct (not1 s); cbn; auto.
Qed.

Lemma same_entry_onto : forall v op c, wf_view v -> legal_op v op -> keeps_all op = true -> in_shape (v_shape v) c ->
  exists c', in_shape (shape_after op (v_shape v)) c' /\ same_entry op (v_order v) (v_shape v) c c'.
Proof.
  intros v op c W Lg K H. destruct op; cbn in K; try discriminate; cbn [shape_after same_entry].
  - destruct Lg as (Si & P & Z). exists (nth_coord (v_order v) shape (number (v_order v) (v_shape v) c)).
    split; [apply nth_coord_in_shape; auto|]. symmetry. apply number_nth_coord; auto. rewrite Z. apply number_lt; auto.
  - eexists. split; [|reflexivity]. apply in_shape_filter; auto.
  - destruct Lg. eexists. split; [|reflexivity]. apply in_shape_select; auto.
  - destruct Lg. eexists. split; [|reflexivity]. apply in_shape_select; auto. apply exchange_perm; auto.
  - eexists. split; [|reflexivity]. apply in_shape_rev; auto.
  - cbn in Lg. eexists. split; [|reflexivity]. apply in_shape_select; auto. apply rotated_perm. destruct (v_shape v); [congruence|cbn; lia].
Qed.
