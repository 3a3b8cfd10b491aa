(** Proofs about the iterators of views. *)
From Verif Require Import Base ShapeSpec ShapeProofs MarrayModel MarraySpec MarrayProofs.

(** * Carry and borrow *)
Lemma rd_mid : forall A (pre : list A) x l, rd (pre ++ x :: l) (length pre) = Ret x.
Proof. intros. unfold rd. rewrite nth_error_app2, Nat.sub_diag by lia. auto. Qed.
Lemma upd_mid : forall A (pre : list A) x y l, upd (pre ++ x :: l) (length pre) y = pre ++ y :: l.
Proof. induction pre; intros; cbn; auto. rewrite IHpre. auto. Qed.
Lemma wr_mid : forall A (pre : list A) x y l, wr (pre ++ x :: l) (length pre) y = Ret (pre ++ y :: l).
Proof. intros. rewrite wr_Ret by (rewrite app_length; cbn; lia). rewrite upd_mid. auto. Qed.

Lemma it_carry_up : forall sh st c preS preT preC p, length preT = length preS -> length preC = length preS ->
  length st = length sh -> in_shape sh c ->
  it_carry (preS ++ sh) (preT ++ st) (seq (length preS) (length sh)) p (preC ++ c)
  = Ret ((p + Z.of_nat (dot (incr sh c) st) - Z.of_nat (dot c st))%Z, preC ++ incr sh c).
Proof.
  induction sh as [|s sh IH]; intros [|t st] c preS preT preC p LT LC L H; cbn in L; try discriminate.
  - inversion H; subst. cbn. f_equal. f_equal. lia.
  - inversion H as [|x s' c' sh' Hx Hc]; subst. cbn [length seq it_carry].
    rewrite <- LC at 1. rewrite rd_mid. cbn [bind]. rewrite rd_mid. cbn [bind]. rewrite <- LT at 1. rewrite rd_mid. cbn [bind].
    rewrite <- LC. rewrite !wr_mid. cbn [bind]. cbn [incr].
    destruct (Nat.eqb_spec (S x) s) as [E|E].
    + replace (preS ++ s :: sh) with ((preS ++ [s]) ++ sh) by (rewrite <- app_assoc; auto).
      replace (preT ++ t :: st) with ((preT ++ [t]) ++ st) by (rewrite <- app_assoc; auto).
      replace (preC ++ 0 :: c') with ((preC ++ [0]) ++ c') by (rewrite <- app_assoc; auto).
      replace (S (length preC)) with (length (preS ++ [s])) by (rewrite app_length; cbn; lia).
      rewrite IH by (auto; rewrite !app_length; cbn; lia). f_equal. f_equal.
      * cbn [dot]. lia.
      * rewrite <- app_assoc. auto.
    + f_equal. f_equal. cbn [dot]. lia.
Qed.

Lemma it_carry_rev : forall dim shape strides js p c, length shape = dim -> length strides = dim -> length c = dim ->
  Forall (fun j => j < dim) js ->
  it_carry (rev shape) (rev strides) js p (rev c)
  = ' (q, d) <- it_carry shape strides (map (fun j => dim - 1 - j) js) p c ;; Ret (q, rev d).
Proof.
  intros dim shape strides js. induction js as [|j js IH]; intros p c Ls Lt Lc F; [reflexivity|].
  apply Forall_cons_iff in F. destruct F as [Hj F]. cbn [map it_carry].
  rewrite (rd_nth _ (rev c) j 0) by (rewrite rev_length; lia). rewrite (rd_nth _ (rev shape) j 0) by (rewrite rev_length; lia).
  rewrite (rd_nth _ (rev strides) j 0) by (rewrite rev_length; lia). rewrite !rev_nth by lia. cbn [bind].
  rewrite (rd_nth _ c (dim - 1 - j) 0), (rd_nth _ shape (dim - 1 - j) 0), (rd_nth _ strides (dim - 1 - j) 0) by lia. cbn [bind].
  rewrite Ls, Lt, Lc. replace (dim - S j) with (dim - 1 - j) by lia.
  assert (U : forall y, upd (rev c) j y = rev (upd c (dim - 1 - j) y)).
  { intros y. apply nth_ext with (d := 0) (d' := 0); [rewrite length_upd, !rev_length, length_upd; auto|].
    intros i Hi. rewrite length_upd, rev_length in Hi. rewrite rev_nth by (rewrite length_upd; auto). rewrite length_upd.
    destruct (Nat.eq_dec j i) as [->|N].
    - rewrite nth_upd_eq by (rewrite rev_length; lia). replace (length c - S i) with (dim - 1 - i) by lia. rewrite nth_upd_eq by lia. auto.
    - rewrite nth_upd_neq by auto. rewrite nth_upd_neq by lia. apply rev_nth; auto. }
  rewrite !wr_Ret by (rewrite ?rev_length; lia). cbn [bind]. rewrite !U.
  destruct (S (nth (dim - 1 - j) c 0) =? nth (dim - 1 - j) shape 0); [|reflexivity].
  apply IH; auto. rewrite length_upd; auto.
Qed.

Lemma map_mirror_seq : forall dim, map (fun j => dim - 1 - j) (seq 0 dim) = rev (seq 0 dim).
Proof.
  intros dim. apply nth_ext with (d := 0) (d' := 0); [rewrite map_length, rev_length; auto|].
  intros j Hj. rewrite map_length, seq_length in Hj. rewrite nth_map_seq by auto.
  rewrite rev_nth by (rewrite seq_length; auto). rewrite seq_length, seq_nth by lia. lia.
Qed.

Lemma it_carry_spec : forall o shape st k p, positive shape -> length st = length shape -> 
  it_carry shape st (it_dims o (length shape)) p (nth_coord o shape k)
  = Ret ((p + Z.of_nat (dot (nth_coord o shape (S k)) st) - Z.of_nat (dot (nth_coord o shape k) st))%Z, nth_coord o shape (S k)).
Proof.
  intros o shape st k p P L. destruct o; cbn [it_dims nth_coord].
  - rewrite <- (rev_involutive shape) at 1. rewrite <- (rev_involutive st) at 1.
    rewrite <- map_mirror_seq.
    pose proof (it_carry_rev (length shape) (rev shape) (rev st) (map (fun j => length shape - 1 - j) (seq 0 (length shape))) p
                  (coord_of (rev shape) k)) as R.
    rewrite R.
    2:{ apply rev_length. } 2:{ rewrite rev_length; auto. } 2:{ rewrite coord_of_length, rev_length; auto. }
    2:{ rewrite map_mirror_seq. apply Forall_rev, Forall_forall. intros j Hj. apply in_seq in Hj. lia. }
    rewrite map_map.
    rewrite (map_ext_in (fun x => length shape - 1 - (length shape - 1 - x)) (fun x => x)) by (intros j Hj; apply in_seq in Hj; lia).
    rewrite map_id.
    pose proof (it_carry_up (rev shape) (rev st) (coord_of (rev shape) k) [] [] [] p eq_refl eq_refl) as U.
    cbn [length app] in U. rewrite (rev_length shape) in U. rewrite U.
    + cbn [bind]. rewrite incr_coord by (apply positive_rev; auto).
      rewrite <- (dot_rev (rev (coord_of (rev shape) (S k))) st) by (rewrite rev_length, coord_of_length, rev_length; auto).
      rewrite <- (dot_rev (rev (coord_of (rev shape) k)) st) by (rewrite rev_length, coord_of_length, rev_length; auto).
      rewrite !rev_involutive. auto.
    + rewrite rev_length; auto.
    + apply coord_of_in_shape, positive_rev; auto.
  - pose proof (it_carry_up shape st (coord_of shape k) [] [] [] p eq_refl eq_refl L (coord_of_in_shape shape k P)) as U.
    cbn [length app] in U. rewrite U. rewrite incr_coord by auto. auto.
Qed.

(** Borrow *)
Fixpoint decr (shape c : list nat) : list nat :=
  match shape, c with
  | s :: sh, x :: c' => match x with 0 => (s - 1) :: decr sh c' | S y => y :: c' end
  | _, _ => c
  end.
Lemma decr_coord : forall shape k, positive shape -> decr shape (coord_of shape (S k)) = coord_of shape k.
Proof.
  induction shape as [|s sh IH]; intros k H; [reflexivity|]. inversion H; subst. cbn [coord_of decr].
  destruct (Nat.eq_dec (S (k mod s)) s) as [E|E].
  - destruct (div_S_wrap k s H2 E) as [-> ->]. rewrite IH by auto. f_equal. lia.
  - destruct (div_S_nowrap k s H2 E) as [-> ->]. auto.
Qed.

Lemma it_borrow_up : forall sh st c preS preT preC p, length preT = length preS -> length preC = length preS ->
  length st = length sh -> length c = length sh ->
  it_borrow (preS ++ sh) (preT ++ st) (seq (length preS) (length sh)) p (preC ++ c)
  = Ret ((p + Z.of_nat (dot (decr sh c) st) - Z.of_nat (dot c st))%Z, preC ++ decr sh c).
Proof.
  induction sh as [|s sh IH]; intros [|t st] c preS preT preC p LT LC L H; cbn in L; try discriminate.
  - destruct c; [|discriminate]. cbn. f_equal. f_equal. lia.
  - destruct c as [|x c]; [discriminate|]. cbn in H. cbn [length seq it_borrow].
    rewrite <- LC at 1. rewrite rd_mid. cbn [bind]. rewrite rd_mid. cbn [bind]. rewrite <- LT at 1. rewrite rd_mid. cbn [bind].
    rewrite <- LC. cbn [decr]. destruct x as [|y].
    + rewrite wr_mid. cbn [bind].
      replace (preS ++ s :: sh) with ((preS ++ [s]) ++ sh) by (rewrite <- app_assoc; auto).
      replace (preT ++ t :: st) with ((preT ++ [t]) ++ st) by (rewrite <- app_assoc; auto).
      replace (preC ++ (s - 1) :: c) with ((preC ++ [s - 1]) ++ c) by (rewrite <- app_assoc; auto).
      replace (S (length preC)) with (length (preS ++ [s])) by (rewrite app_length; cbn; lia).
      rewrite IH by (auto; rewrite ?app_length; cbn; lia). f_equal. f_equal.
      * cbn [dot]. lia.
      * rewrite <- app_assoc. auto.
    + rewrite wr_mid. cbn [bind]. f_equal. f_equal. cbn [dot]. lia.
Qed.

Lemma it_borrow_rev : forall dim shape strides js p c, length shape = dim -> length strides = dim -> length c = dim ->
  Forall (fun j => j < dim) js ->
  it_borrow (rev shape) (rev strides) js p (rev c)
  = ' (q, d) <- it_borrow shape strides (map (fun j => dim - 1 - j) js) p c ;; Ret (q, rev d).
Proof.
  intros dim shape strides js. induction js as [|j js IH]; intros p c Ls Lt Lc F; [reflexivity|].
  apply Forall_cons_iff in F. destruct F as [Hj F]. cbn [map it_borrow].
  rewrite (rd_nth _ (rev c) j 0) by (rewrite rev_length; lia). rewrite (rd_nth _ (rev shape) j 0) by (rewrite rev_length; lia).
  rewrite (rd_nth _ (rev strides) j 0) by (rewrite rev_length; lia). rewrite !rev_nth by lia. cbn [bind].
  rewrite (rd_nth _ c (dim - 1 - j) 0), (rd_nth _ shape (dim - 1 - j) 0), (rd_nth _ strides (dim - 1 - j) 0) by lia. cbn [bind].
  rewrite Ls, Lt, Lc. replace (dim - S j) with (dim - 1 - j) by lia.
  assert (U : forall y, upd (rev c) j y = rev (upd c (dim - 1 - j) y)).
  { intros y. apply nth_ext with (d := 0) (d' := 0); [rewrite length_upd, !rev_length, length_upd; auto|].
    intros i Hi. rewrite length_upd, rev_length in Hi. rewrite rev_nth by (rewrite length_upd; auto). rewrite length_upd.
    destruct (Nat.eq_dec j i) as [->|N].
    - rewrite nth_upd_eq by (rewrite rev_length; lia). replace (length c - S i) with (dim - 1 - i) by lia. rewrite nth_upd_eq by lia. auto.
    - rewrite nth_upd_neq by auto. rewrite nth_upd_neq by lia. apply rev_nth; auto. }
  destruct (nth (dim - 1 - j) c 0) as [|y] eqn:Ex; rewrite !wr_Ret by (rewrite ?rev_length; lia); cbn [bind]; rewrite !U; [|reflexivity].
  apply IH; auto. rewrite length_upd; auto.
Qed.

Lemma it_borrow_spec : forall o shape st k p, positive shape -> length st = length shape ->
  it_borrow shape st (it_dims o (length shape)) p (nth_coord o shape (S k))
  = Ret ((p + Z.of_nat (dot (nth_coord o shape k) st) - Z.of_nat (dot (nth_coord o shape (S k)) st))%Z, nth_coord o shape k).
Proof.
  intros o shape st k p P L. destruct o; cbn [it_dims nth_coord].
  - rewrite <- (rev_involutive shape) at 1. rewrite <- (rev_involutive st) at 1.
    rewrite <- map_mirror_seq.
    pose proof (it_borrow_rev (length shape) (rev shape) (rev st) (map (fun j => length shape - 1 - j) (seq 0 (length shape))) p
                  (coord_of (rev shape) (S k))) as R.
    rewrite R.
    2:{ apply rev_length. } 2:{ rewrite rev_length; auto. } 2:{ rewrite coord_of_length, rev_length; auto. }
    2:{ rewrite map_mirror_seq. apply Forall_rev, Forall_forall. intros j Hj. apply in_seq in Hj. lia. }
    rewrite map_map.
    rewrite (map_ext_in (fun x => length shape - 1 - (length shape - 1 - x)) (fun x => x)) by (intros j Hj; apply in_seq in Hj; lia).
    rewrite map_id.
    pose proof (it_borrow_up (rev shape) (rev st) (coord_of (rev shape) (S k)) [] [] [] p eq_refl eq_refl) as U.
    cbn [length app] in U. rewrite (rev_length shape) in U. rewrite U.
    + cbn [bind]. rewrite decr_coord by (apply positive_rev; auto).
      rewrite <- (dot_rev (rev (coord_of (rev shape) (S k))) st) by (rewrite rev_length, coord_of_length, rev_length; auto).
      rewrite <- (dot_rev (rev (coord_of (rev shape) k)) st) by (rewrite rev_length, coord_of_length, rev_length; auto).
      rewrite !rev_involutive. auto.
    + rewrite rev_length; auto.
    + rewrite (coord_of_length (rev shape)). apply rev_length.
  - pose proof (it_borrow_up shape st (coord_of shape (S k)) [] [] [] p eq_refl eq_refl L (coord_of_length shape (S k))) as U.
    cbn [length app] in U. rewrite U. rewrite decr_coord by auto. auto.
Qed.

(** * Positions *)
Definition it_ok (v : view) (k : nat) (i : iter) : Prop :=
  i_index i = k /\ k <= v_size v /\
  if v_simple v then i_ptr i = (Z.of_nat (addr v (nth_coord (v_order v) (v_shape v) 0)) + Z.of_nat k)%Z
  else k < v_size v -> i_ptr i = Z.of_nat (addr v (nth_coord (v_order v) (v_shape v) k)) /\ i_coord i = nth_coord (v_order v) (v_shape v) k.

Lemma addr_simple : forall v k, wf_view v -> v_simple v = true -> k < v_size v ->
  addr v (nth_coord (v_order v) (v_shape v) k) = addr v (nth_coord (v_order v) (v_shape v) 0) + k.
Proof.
  intros v k W S Hk. rewrite (wv_size v W) in Hk. pose proof (wv_pos v W) as P.
  unfold addr. destruct (v_data v) eqn:D; [|destruct (wv_data v W D)].
  rewrite (wv_simple v W S), !dot_spec_strides by apply nth_coord_length.
  rewrite !number_nth_coord; auto; lia.
Qed.

Lemma size_pos : forall v, wf_view v -> 0 < v_size v.
Proof. intros v W. rewrite (wv_size v W). apply size_of_pos, (wv_pos v W). Qed.

Lemma it_ok_ptr : forall v k i, wf_view v -> it_ok v k i -> k < v_size v -> i_ptr i = Z.of_nat (addr v (nth_coord (v_order v) (v_shape v) k)).
Proof.
  intros v k i W (_ & _ & H) Hk. destruct (v_simple v) eqn:S.
  - rewrite H, (addr_simple v k W S Hk). lia.
  - apply H; auto.
Qed.

Lemma it_at_ok : forall v k, wf_view v -> iterable v -> k < v_size v -> exists i, it_at v k = Ret i /\ it_ok v k i.
Proof.
  intros v k W I Hk. pose proof (size_pos v W) as SP. unfold it_at.
  destruct (Nat.eqb_spec (v_size v) 0); [lia|]. destruct (v_simple v) eqn:S.
  - rewrite at_index_spec by auto. cbn [bind]. eexists. split; [reflexivity|]. unfold it_ok. rewrite S. cbn. repeat split; auto. lia.
  - destruct I as [I|I]; [congruence|]. destruct (Nat.leb_spec (v_size v) k); [lia|].
    rewrite indexToCoordinates_spec, at_index_spec by auto. cbn [bind]. eexists. split; [reflexivity|]. unfold it_ok. rewrite S. cbn. repeat split; auto. lia.
Qed.

Lemma it_fast_lt : forall o (shape : list nat), shape <> [] -> exists f, it_fast o (length shape) = Ret f /\ f < length shape.
Proof. intros [] [|s sh] H; try congruence; cbn; eexists; split; try reflexivity; lia. Qed.

Lemma it_next_ok : forall v k i, wf_view v -> iterable v -> it_ok v k i ->
  exists i', it_next v i = Ret i' /\ it_ok v (Nat.min (v_size v) (S k)) i'.
Proof.
  intros v k i W I H. pose proof H as H0. destruct H as (Hk & Hle & H). pose proof (size_pos v W) as SP.
  unfold it_next. rewrite Hk. destruct (Nat.ltb_spec k (v_size v)) as [Lt|Ge].
  - destruct (v_simple v) eqn:S.
    + eexists. split; [reflexivity|]. unfold it_ok. rewrite S. cbn. rewrite Nat.min_r by lia. repeat split; lia.
    + destruct I as [I|I]; [congruence|]. destruct (H Lt) as [Hp Hc]. destruct (Nat.ltb_spec (Datatypes.S k) (v_size v)) as [L2|G2].
      * rewrite Hc, Hp. unfold v_dim, g_dim. change (g_shape (v_geo v)) with (v_shape v).
        rewrite it_carry_spec by (auto; first [apply (wv_pos v W)|apply (wv_len v W)]).
        assert (E : forall A (x y : outcome A), match v_order v with | FirstMajor => match length (v_shape v) with 0 => x | Datatypes.S _ => y end | LastMajor => y end = y).
        { intros A x y. destruct (v_order v), (v_shape v); cbn; congruence. }
        rewrite E. cbn [bind]. eexists. split; [reflexivity|]. unfold it_ok. rewrite S. cbn [i_index i_ptr i_coord]. rewrite Nat.min_r by lia.
        split; [auto|]. split; [lia|]. intros _. split; [|auto]. unfold addr. destruct (v_data v) eqn:D; [lia|destruct (wv_data v W D)].
      * rewrite at_index_spec by (auto; lia). cbn [bind]. unfold v_dim, g_dim. change (g_shape (v_geo v)) with (v_shape v).
        destruct (it_fast_lt (v_order v) (v_shape v) I) as (f & Ef & Hf). rewrite Ef. cbn [bind]. rewrite Hc.
        rewrite (rd_nth _ _ f 0) by (rewrite nth_coord_length; auto). cbn [bind]. rewrite wr_Ret by (rewrite nth_coord_length; auto). cbn [bind].
        eexists. split; [reflexivity|]. unfold it_ok. rewrite S. cbn. split; [lia|]. split; [lia|]. intros C. exfalso; lia.
  - exists i. split; auto. rewrite Nat.min_l by lia. replace (v_size v) with k by lia. auto.
Qed.

Lemma it_prev_ok : forall v k i, wf_view v -> iterable v -> it_ok v k i -> 0 < k -> (k < v_size v \/ v_simple v = true) ->
  exists i', it_prev v i = Ret i' /\ it_ok v (k - 1) i'.
Proof.
  intros v k i W I (Hk & Hle & H) Hp HL. unfold it_prev. rewrite Hk. destruct k as [|k]; [lia|]. destruct (v_simple v) eqn:S.
  - eexists. split; [reflexivity|]. unfold it_ok. rewrite S. cbn. rewrite Nat.sub_0_r. repeat split; lia.
  - destruct HL as [HL|]; [|discriminate]. destruct I as [I|I]; [congruence|]. destruct (H HL) as [Hp' Hc].
    destruct (Nat.eqb_spec k (v_size v)); [lia|]. rewrite Hc, Hp'. unfold v_dim, g_dim. change (g_shape (v_geo v)) with (v_shape v).
    rewrite it_borrow_spec by (auto; first [apply (wv_pos v W)|apply (wv_len v W)]).
    assert (E : forall A (x y : outcome A), match v_order v with | FirstMajor => match length (v_shape v) with 0 => x | Datatypes.S _ => y end | LastMajor => y end = y).
    { intros A x y. destruct (v_order v), (v_shape v); cbn; congruence. }
    rewrite E. cbn [bind]. eexists. split; [reflexivity|]. unfold it_ok. rewrite S. cbn [i_index i_ptr i_coord].
    replace (Datatypes.S k - 1) with k by lia.
    split; [auto|]. split; [lia|]. intros _. split; [|auto]. unfold addr. destruct (v_data v) eqn:D; [lia|destruct (wv_data v W D)].
Qed.

Lemma it_add_ok : forall v k i x, wf_view v -> iterable v -> it_ok v k i ->
  exists i', it_add v i x = Ret i' /\ it_ok v (Nat.min (v_size v) (k + x)) i'.
Proof.
  intros v k i x W I H0. pose proof H0 as (Hk & Hle & H). unfold it_add. rewrite Hk.
  destruct (Nat.ltb_spec k (v_size v)) as [Lt|Ge].
  - destruct (Nat.ltb_spec (k + x) (v_size v)) as [L2|G2].
    + rewrite Nat.min_r by lia. destruct (v_simple v) eqn:S.
      * eexists. split; [reflexivity|]. unfold it_ok. rewrite S. cbn. repeat split; lia.
      * destruct I as [I|I]; [congruence|]. rewrite at_index_spec, indexToCoordinates_spec by auto. cbn [bind].
        eexists. split; [reflexivity|]. unfold it_ok. rewrite S. cbn. split; [auto|]. split; [lia|]. auto.
    + rewrite Nat.min_l by lia. destruct (v_simple v) eqn:S.
      * rewrite at_index_spec by (auto; lia). cbn [bind]. eexists. split; [reflexivity|]. unfold it_ok. rewrite S. cbn. repeat split; lia.
      * destruct I as [I|I]; [congruence|]. rewrite at_index_spec, indexToCoordinates_spec by (auto; lia). cbn [bind].
        unfold v_dim, g_dim. change (g_shape (v_geo v)) with (v_shape v).
        destruct (it_fast_lt (v_order v) (v_shape v) I) as (f & Ef & Hf). rewrite Ef. cbn [bind].
        rewrite (rd_nth _ _ f 0) by (rewrite nth_coord_length; auto). cbn [bind]. rewrite wr_Ret by (rewrite nth_coord_length; auto). cbn [bind].
        eexists. split; [reflexivity|]. unfold it_ok. rewrite S. cbn. split; [lia|]. split; [lia|]. intros C. exfalso; lia.
  - exists i. split; auto. rewrite Nat.min_l by lia. replace (v_size v) with k by lia. auto.
Qed.

Lemma it_sub_ok : forall v k i x, wf_view v -> iterable v -> it_ok v k i -> x <= k -> (k - x < v_size v \/ v_simple v = true) ->
  exists i', it_sub v i x = Ret i' /\ it_ok v (k - x) i'.
Proof.
  intros v k i x W I (Hk & Hle & H) Hx HL. unfold it_sub. rewrite Hk. destruct (Nat.ltb_spec k x); [lia|]. destruct (v_simple v) eqn:S.
  - eexists. split; [reflexivity|]. unfold it_ok. rewrite S. cbn. repeat split; lia.
  - destruct HL as [HL|]; [|discriminate]. destruct I as [I|I]; [congruence|].
    rewrite at_index_spec, indexToCoordinates_spec by auto. cbn [bind].
    eexists. split; [reflexivity|]. unfold it_ok. rewrite S. cbn. split; [auto|]. split; [lia|]. auto.
Qed.

Lemma it_coordinate_ok : forall v k i, wf_view v -> v_shape v <> [] -> it_ok v k i -> k < v_size v ->
  it_coordinate v i = Ret (nth_coord (v_order v) (v_shape v) k).
Proof.
  intros v k i W N (Hk & Hle & H) Lt. unfold it_coordinate. destruct (v_simple v) eqn:S.
  - rewrite Hk. apply indexToCoordinates_spec; auto.
  - destruct (H Lt) as [_ ->]. auto.
Qed.
