(** Theorems about multi-dimensional arrays and views (C37). *)
From Coq Require Import Permutation.
From Verif Require Import Base ShapeSpec ShapeProofs MarrayModel MarraySpec MarrayProofs MarrayIter MarrayMem MarrayOps MarrayResize.

(** * Views *)
(** Whatever history of sub-views, reshapes, bindings, squeezings, permutations, transpositions and
    shifts derives a view from a block of memory: its shape is the one the operations prescribe,
    each of its coordinates names, by coordinates and by index, the entry of the block that the
    operations prescribe, inside the block, and different coordinates name different entries. *)
Theorem C37_views : forall shape b ext int v0 ops, positive shape ->
  view_unstrided shape (Some b) ext int = Ret v0 -> legal_ops v0 ops ->
  exists v, vrun ops v0 = Ret v /\
    v_shape v = shape_run ops shape /\ v_order v = order_run ops int /\ v_size v = size_of (v_shape v) /\
    (forall c', in_shape (v_shape v) c' -> exists c, in_shape shape c /\ same_entry_run ops int shape c c' /\
       at_coord v c' = Ret (b + number ext shape c) /\
       at_index v (number (v_order v) (v_shape v) c') = Ret (b + number ext shape c) /\
       number ext shape c < size_of shape) /\
    (forall c1 c2, in_shape (v_shape v) c1 -> in_shape (v_shape v) c2 -> at_coord v c1 = at_coord v c2 -> c1 = c2).
Proof.
  intros shape b ext int v0 ops P E0 Lg. destruct (wf_unstrided shape b ext int P) as (v & E & W & D & Sh & O & St & _).
  rewrite E0 in E. injection E as <-. destruct (run_spec ops v0 W Lg) as (v & E & W' & Sh' & O' & H). rewrite Sh, O in *.
  assert (A0 : forall c, in_shape shape c -> addr v0 c = b + number ext shape c).
  { intros c Hc. unfold addr. rewrite D, St, dot_spec_strides by (apply in_shape_length; auto). auto. }
  exists v. split; [auto|]. split; [auto|]. split; [auto|]. split; [apply (wv_size v W')|]. split.
  - intros c' Hc. destruct (H c' Hc) as (c & A & B & C). exists c. split; [auto|]. split; [auto|].
    rewrite at_coord_spec by (auto; apply in_shape_length; auto). rewrite C, A0 by auto. split; [auto|]. split; [|apply number_lt; auto].
    rewrite at_index_spec by (auto; rewrite (wv_size v W'); apply number_lt; auto). rewrite nth_coord_number by auto. rewrite C, A0 by auto. auto.
  - intros c1 c2 H1 H2 Q. rewrite !at_coord_spec in Q by (auto; apply in_shape_length; auto). injection Q as Q.
    destruct (H c1 H1) as (d1 & A1 & B1 & C1). destruct (H c2 H2) as (d2 & A2 & B2 & C2).
    assert (d1 = d2). { apply (number_inj ext shape); auto. rewrite C1, C2, !A0 in Q by auto. lia. }
    subst d2. rewrite Sh' in H1, H2. rewrite <- Sh, <- O in *. apply (run_inj ops v0 d1); auto.
Qed.

(** Operations other than taking a part lose no entry. *)
Theorem C37_views_onto : forall shape b ext int v0 ops v, positive shape ->
  view_unstrided shape (Some b) ext int = Ret v0 -> legal_ops v0 ops -> forallb keeps_all ops = true ->
  vrun ops v0 = Ret v ->
  forall c, in_shape shape c ->
  exists c', in_shape (v_shape v) c' /\ same_entry_run ops int shape c c' /\ at_coord v c' = Ret (b + number ext shape c).
Proof.
  intros shape b ext int v0 ops v P E0 Lg K E c Hc. destruct (wf_unstrided shape b ext int P) as (v1 & E1 & W & D & Sh & O & St & _).
  rewrite E0 in E1. injection E1 as <-. destruct (run_spec ops v0 W Lg) as (v2 & E2 & W' & Sh' & O' & H). rewrite E in E2. injection E2 as <-.
  rewrite <- Sh in Hc. destruct (run_onto ops v0 v W Lg K E c Hc) as (c' & A & B & C). rewrite <- Sh' in A. rewrite Sh, O in *.
  exists c'. split; [auto|]. split; [auto|]. rewrite at_coord_spec by (auto; apply in_shape_length; auto). rewrite C.
  unfold addr. rewrite D, St, dot_spec_strides by (apply in_shape_length; auto). auto.
Qed.

(** A history that uses the operations. *)
Example C37_views_case : exists v0 v, view_unstrided [2; 3; 4; 1] (Some 7) FirstMajor LastMajor = Ret v0 /\
  legal_ops v0 [OpSub [0; 1; 1; 0] [2; 2; 3; 1] FirstMajor; OpSqueeze; OpPermute [2; 0; 1]; OpBound 1 1; OpTranspose; OpShift 1] /\
  vrun [OpSub [0; 1; 1; 0] [2; 2; 3; 1] FirstMajor; OpSqueeze; OpPermute [2; 0; 1]; OpBound 1 1; OpTranspose; OpShift 1] v0 = Ret v /\
  v_shape v = [3; 2] /\ at_coord v [2; 1] = Ret (7 + number FirstMajor [2; 3; 4; 1] [1; 2; 3; 0]).
Proof.
  eexists. eexists. split; [vm_compute; reflexivity|]. split.
  { split.
    { cbn. repeat split; auto; try (repeat constructor; fail). intros j Hj. destruct j as [|[|[|[|j]]]]; cbn; lia. }
    intros v1 E1. vm_compute in E1. injection E1 as <-. split; [exact I|].
    intros v2 E2. vm_compute in E2. injection E2 as <-. split.
    { split; [discriminate|]. cbn. apply Permutation_sym. apply (Permutation_cons_app [2] [1] 0). apply perm_swap. }
    intros v3 E3. vm_compute in E3. injection E3 as <-. split; [cbn; lia|].
    intros v4 E4. vm_compute in E4. injection E4 as <-. split; [discriminate|].
    intros v5 E5. vm_compute in E5. injection E5 as <-. split; [discriminate|]. intros; exact I. }
  split; [vm_compute; reflexivity|]. split; vm_compute; reflexivity.
Qed.

(** Indices and coordinates: the two conversions are inverse to each other and number the entries
    in the order of the view. *)
Theorem C37_index : forall V (m : list V) v, view_of m v ->
  (forall c, in_shape (v_shape v) c ->
     coordinatesToIndex v c = Ret (number (v_order v) (v_shape v) c) /\ number (v_order v) (v_shape v) c < v_size v /\
     (v_shape v <> [] -> indexToCoordinates v (number (v_order v) (v_shape v) c) = Ret c)) /\
  (v_shape v <> [] -> forall k, k < v_size v ->
     exists c, indexToCoordinates v k = Ret c /\ in_shape (v_shape v) c /\ coordinatesToIndex v c = Ret k /\ at_index v k = at_coord v c).
Proof.
  intros V m v Hv. destruct (view_of_facts V m v Hv) as (W & _). split.
  - intros c Hc. assert (N : number (v_order v) (v_shape v) c < v_size v) by (rewrite (wv_size v W); apply number_lt; auto).
    split; [apply coordinatesToIndex_spec; auto; apply in_shape_length; auto|]. split; [auto|]. intros NE.
    rewrite indexToCoordinates_spec by auto. rewrite nth_coord_number by auto. auto.
  - intros NE k Hk. pose proof (nth_coord_in_shape (v_order v) (v_shape v) k (wv_pos v W)) as I.
    exists (nth_coord (v_order v) (v_shape v) k). rewrite indexToCoordinates_spec by auto. split; [auto|]. split; [auto|].
    rewrite coordinatesToIndex_spec by (auto; apply in_shape_length; auto). rewrite (wv_size v W) in Hk. rewrite number_nth_coord by (auto; apply (wv_pos v W)).
    split; [auto|]. rewrite at_index_spec by (auto; rewrite (wv_size v W); auto). rewrite at_coord_spec by (auto; apply in_shape_length; auto). auto.
Qed.

(** Squeezing a view without dimensions of more than one entry leaves a stale mark: the view of one
    entry is taken for one whose entries are spread over memory, although it is identical to a
    scalar otherwise, and iterators on it read coordinates that do not exist. *)
Theorem C37_squeeze_refuted : exists v0 v1 v,
  view_unstrided [5; 2] (Some 0) LastMajor LastMajor = Ret v0 /\ sub_view v0 [0; 0] [1; 1] LastMajor = Ret v1 /\ squeeze v1 = Ret v /\
  v_shape v = [] /\ v_size v = 1 /\ at_coord v [] = Ret 0 /\ v_simple v = false /\ it_at v 0 = Undef.
Proof. do 3 eexists. repeat split; vm_compute; reflexivity. Qed.

(** * Iterators *)
(** An iterator moved by any history of steps and jumps from the first entry is at the position that
    the moves add up to, and there it points at the entry with that number and reports its
    coordinates. *)
Theorem C37_iteration : forall V (m : list V) v ops, view_of m v -> iterable v -> legal_iops v 0 ops ->
  exists i0 i, it_at v 0 = Ret i0 /\ irun v ops i0 = Ret i /\
    let k := fold_left (position_after (v_size v)) ops 0 in
    i_index i = k /\ k <= v_size v /\ (it_hasMore v i = true <-> k < v_size v) /\
    (k < v_size v ->
       (exists a, at_index v k = Ret a /\ i_ptr i = Z.of_nat a) /\
       (v_shape v <> [] -> exists c, in_shape (v_shape v) c /\ number (v_order v) (v_shape v) c = k /\ it_coordinate v i = Ret c)).
Proof.
  intros V m v ops Hv I L. destruct (view_of_facts V m v Hv) as (W & _). pose proof (size_pos v W) as SP.
  destruct (it_at_ok v 0 W I SP) as (i0 & E0 & O0). destruct (irun_ok v ops 0 i0 W I O0 L) as (i & E & O).
  exists i0, i. split; [auto|]. split; [auto|]. cbv zeta. set (k := fold_left (position_after (v_size v)) ops 0) in *.
  pose proof O as (Ek & Le & _). split; [auto|]. split; [auto|]. split; [unfold it_hasMore; rewrite Ek; apply Nat.ltb_lt|].
  intros Hk. split.
  - eexists. split; [apply at_index_spec; auto|]. apply (it_ok_ptr v k i W O Hk).
  - intros NE. exists (nth_coord (v_order v) (v_shape v) k). split; [apply nth_coord_in_shape, (wv_pos v W)|].
    split; [apply number_nth_coord; [apply (wv_pos v W)|rewrite <- (wv_size v W); auto]|]. apply it_coordinate_ok; auto.
Qed.
Example C37_iteration_case : exists v0 v i0 i, view_unstrided [3; 4] (Some 0) LastMajor LastMajor = Ret v0 /\
  sub_view v0 [1; 1] [2; 3] FirstMajor = Ret v /\ v_simple v = false /\ legal_iops v 0 [INext; IAdd 3; IPrev; INext; INext; IAdd 9; ISub 4] /\
  it_at v 0 = Ret i0 /\ irun v [INext; IAdd 3; IPrev; INext; INext; IAdd 9; ISub 4] i0 = Ret i /\ i_index i = 2 /\ i_ptr i = 10%Z /\ i_coord i = [0; 2].
Proof.
  do 4 eexists. split; [vm_compute; reflexivity|]. split; [vm_compute; reflexivity|]. split; [reflexivity|].
  split. { cbn. repeat split; try lia; left; lia. } repeat split; vm_compute; reflexivity.
Qed.

(** A step back from the end of a view whose entries are spread over memory misses the last entry. *)
Theorem C37_iteration_back_refuted : exists v0 v i0 i1 i a,
  view_unstrided [2; 3] (Some 0) LastMajor LastMajor = Ret v0 /\ transpose v0 = Ret v /\ v_size v = 6 /\
  it_at v 0 = Ret i0 /\ irun v [INext; INext; INext; INext; INext; INext] i0 = Ret i1 /\ i_index i1 = 6 /\
  it_prev v i1 = Ret i /\ i_index i = 5 /\ at_index v 5 = Ret a /\ i_ptr i <> Z.of_nat a.
Proof. do 6 eexists. repeat (split; [vm_compute; reflexivity|]). vm_compute. discriminate. Qed.

(** * Entries *)
Section Entries.
Context {V : Type}.
Variable garbage : V.
Notation memory := (list V).

(** An array made from a view has its shape, its order and its entries, in new memory. *)
Theorem C37_copy : forall (m : memory) v, view_of m v -> iterable v ->
  exists a m', marray_of_view garbage v m = Ret (a, m') /\ view_of m' a /\ v_simple a = true /\
    v_shape a = v_shape v /\ v_order a = v_order v /\
    (forall c, in_shape (v_shape v) c -> entry m' a c = entry m v c) /\
    (forall i, touches a i -> length m <= i) /\
    (forall i, i < length m -> nth_error m' i = nth_error m i).
Proof.
  intros m v Hv I. destruct (view_of_facts V m v Hv) as (W & IN & F).
  destruct (marray_of_view_ok garbage v m W I F) as (m' & E & L & U & K).
  set (t := array_at (length m) (v_geo v)) in *. assert (Wt : wf_view t) by (apply array_at_wf; auto).
  exists t, m'. split; [auto|]. split.
  { exists (length m), (v_shape v), (v_order v), (v_order v).
    destruct (wf_unstrided (v_shape v) (length m) (v_order v) (v_order v) (wv_pos v W)) as (t' & Et & Wt' & Dt' & Sh' & O' & St' & Sm').
    exists t', []. split; [apply (wv_pos v W)|]. split; [rewrite L, (wv_size v W); auto|]. split; [auto|]. split; [exact Logic.I|].
    cbn. f_equal. unfold view_unstrided, geo_unstrided in Et. unfold t, array_at.
    pose proof (wv_ss v W) as SS. pose proof (wv_size v W) as SZ. unfold v_shape, v_order, v_size in *. destruct (v_geo v) as [gs gss gst gz go gm]. cbn in *.
    subst gss gz. destruct gs as [|s gs]; cbn [bind] in Et.
    - injection Et as <-. cbn. destruct go; reflexivity.
    - rewrite !stridesFromShape_spec in Et by discriminate. cbn [bind] in Et. injection Et as <-. rewrite order_eqb_refl.
      f_equal. f_equal. rewrite fold_left_mul, ?Nat.add_0_r. reflexivity. }
  split; [auto|]. split; [auto|]. split; [auto|]. split.
  - intros c Hc. rewrite !entry_addr by auto. apply U; auto.
  - split; [|auto]. intros i (c & Hc & Ei). rewrite at_coord_spec in Ei by (auto; apply in_shape_length; auto). injection Ei as <-.
    unfold addr. cbn. lia.
Qed.

(** Assigning a view to a view of the same shape: every entry takes the value that the source showed
    before, also when the views overlap, and no other entry of the memory changes. *)
Theorem C37_assign : forall (m : memory) v w, view_of m v -> view_of m w -> v_shape v = v_shape w ->
  iterable v -> iterable w -> (v_order v = v_order w \/ length (v_shape v) <= 10) ->
  exists m', assign_data garbage v w m = Ret m' /\ length m <= length m' /\
    (forall c, in_shape (v_shape v) c -> entry m' v c = entry m w c) /\
    (forall i, i < length m -> ~ touches v i -> nth_error m' i = nth_error m i).
Proof.
  intros m v w Hv Hw Sh I1 I2 OD. destruct (view_of_facts V m v Hv) as (W1 & IN & F1). destruct (view_of_facts V m w Hw) as (W2 & _ & F2).
  destruct (assign_data_ok garbage v w m W1 W2 Sh I1 I2 OD IN F1 F2) as (m' & E & L & U & K). exists m'. split; [auto|]. split; [auto|]. split.
  - intros c Hc. rewrite !entry_addr by (auto; rewrite <- Sh; auto). apply U; auto.
  - intros i Hi N. apply K; auto. apply touches_addr; auto.
Qed.

(** Element-wise operations of a view with a view of the same shape. *)
Theorem C37_operate : forall f (m : memory) v w, view_of m v -> view_of m w -> v_shape v = v_shape w -> v_shape w <> [] ->
  (v_order v = v_order w \/ length (v_shape v) <= 10) ->
  exists m', operate_view garbage f v w m = Ret m' /\ length m <= length m' /\
    (forall c, in_shape (v_shape v) c -> exists x y, entry m v c = Some x /\ entry m w c = Some y /\ entry m' v c = Some (f x y)) /\
    (forall i, i < length m -> ~ touches v i -> nth_error m' i = nth_error m i).
Proof.
  intros f m v w Hv Hw Sh NE OD. destruct (view_of_facts V m v Hv) as (W1 & IN & F1). destruct (view_of_facts V m w Hw) as (W2 & _ & F2).
  assert (I1 : iterable v) by (right; congruence). assert (I2 : iterable w) by (right; auto).
  destruct (operate_view_ok garbage f v w m W1 W2 Sh NE I1 I2 OD IN F1 F2) as (m' & E & L & U & K). exists m'. split; [auto|]. split; [auto|]. split.
  - intros c Hc. destruct (nth_error_lt m (addr v c) (F1 c Hc)) as (x & Ex).
    assert (Hw' : in_shape (v_shape w) c) by (rewrite <- Sh; auto). destruct (nth_error_lt m (addr w c) (F2 c Hw')) as (y & Ey).
    exists x, y. rewrite !entry_addr by auto. split; [auto|]. split; [auto|]. apply U; auto.
  - intros i Hi N. apply K; auto. apply touches_addr; auto.
Qed.
(** Element-wise operations with a view without dimensions, and with a scalar. *)
Theorem C37_operate_scalar : forall (m : memory) v, view_of m v -> iterable v ->
  (forall f w, view_of m w -> v_shape w = [] ->
     exists m', operate_view garbage f v w m = Ret m' /\ length m' = length m /\
       (forall c, in_shape (v_shape v) c -> exists x y, entry m v c = Some x /\ entry m w [] = Some y /\ entry m' v c = Some (f x y)) /\
       (forall i, ~ touches v i -> nth_error m' i = nth_error m i)) /\
  (forall f, exists m', operate_scalar f v m = Ret m' /\ length m' = length m /\
       (forall c, in_shape (v_shape v) c -> exists x, entry m v c = Some x /\ entry m' v c = Some (f x)) /\
       (forall i, ~ touches v i -> nth_error m' i = nth_error m i)).
Proof.
  intros m v Hv I. destruct (view_of_facts V m v Hv) as (W1 & IN & F1). split.
  - intros f w Hw Sh. destruct (view_of_facts V m w Hw) as (W2 & _ & F2).
    destruct (operate_view_scalar_ok garbage f v w m W1 W2 Sh I IN F1 F2) as (m' & E & L & U & K). exists m'. split; [auto|]. split; [auto|]. split.
    + intros c Hc. destruct (nth_error_lt m (addr v c) (F1 c Hc)) as (x & Ex).
      assert (Hw' : in_shape (v_shape w) []) by (rewrite Sh; constructor). destruct (nth_error_lt m (addr w []) (F2 [] Hw')) as (y & Ey).
      exists x, y. rewrite !entry_addr by auto. split; [auto|]. split; [auto|]. apply U; auto.
    + intros i N. apply K; auto. apply touches_addr; auto.
  - intros f. destruct (apply1_ok f v m W1 I IN F1) as (m' & E & L & U & K). exists m'. split; [auto|]. split; [auto|]. split.
    + intros c Hc. destruct (nth_error_lt m (addr v c) (F1 c Hc)) as (x & Ex). exists x. rewrite !entry_addr by auto. split; auto.
    + intros i N. apply K; auto. apply touches_addr; auto.
Qed.

(** New arrays. *)
Theorem C37_new : forall (m : memory) shape value o, positive shape ->
  exists a m', marray_new shape value o m = Ret (a, m') /\ block m' (length m) shape o a /\
    (forall c, in_shape shape c -> entry m' a c = Some value) /\
    (forall i, i < length m -> nth_error m' i = nth_error m i).
Proof.
  intros m shape value o P. unfold marray_new. destruct (wf_unstrided shape (length m) o o P) as (a & E & _). rewrite E. cbn [bind].
  rewrite fold_left_mul, Nat.mul_1_l. exists a, (m ++ repeat value (size_of shape)). split; [auto|].
  assert (B : block (m ++ repeat value (size_of shape)) (length m) shape o a).
  { split; [auto|]. split; [rewrite app_length, repeat_length; auto|auto]. }
  split; [auto|]. destruct (block_facts _ _ _ _ _ B) as (W & _ & _ & Sh & _ & _ & AD). split.
  - intros c Hc. rewrite entry_addr by (auto; congruence). rewrite AD by auto. rewrite nth_error_app2 by lia.
    replace (length m + number o shape c - length m) with (number o shape c) by lia.
    pose proof (number_lt o shape c Hc) as N. revert N. generalize (number o shape c), (size_of shape). clear. intros n k H. revert k H.
    induction n; intros [|k] H; try lia; cbn; auto. apply IHn. lia.
  - intros i Hi. apply nth_error_app1; auto.
Qed.

(** Copying an array, assigning an array to an array and assigning a view to an array: the array has
    the shape, the order and the entries of the source; nothing outside the array's old memory
    changes. The view may be a view of the array. *)
Theorem C37_array_assign : forall (m : memory) b sh o a, block m b sh o a ->
  (exists a' m', marray_copy garbage a m = Ret (a', m') /\ block m' (length m) sh o a' /\
     (forall c, in_shape sh c -> entry m' a' c = entry m a c) /\
     (forall i, i < length m -> nth_error m' i = nth_error m i)) /\
  (forall b2 sh2 o2 a2, block m b2 sh2 o2 a2 -> b + size_of sh <= b2 \/ b2 + size_of sh2 <= b ->
     exists a' m' b', marray_assign garbage a a2 m = Ret (a', m') /\ block m' b' sh2 o2 a' /\
       (forall c, in_shape sh2 c -> entry m' a' c = entry m a2 c) /\
       (forall i, i < length m -> i < b \/ b + size_of sh <= i -> nth_error m' i = nth_error m i)) /\
  (forall v, view_of m v -> iterable v ->
     exists a' m' b', marray_assign_view garbage a v m = Ret (a', m') /\ block m' b' (v_shape v) (v_order v) a' /\
       (forall c, in_shape (v_shape v) c -> entry m' a' c = entry m v c) /\
       (forall i, i < length m -> i < b \/ b + size_of sh <= i -> nth_error m' i = nth_error m i)).
Proof.
  intros m b sh o a B. destruct (block_facts m b sh o a B) as (W & SM & D & Sh & O & F & AD). pose proof B as (P & Hm & EU).
  assert (IN : forall c, in_shape sh c -> b <= addr a c < b + size_of sh).
  { intros c Hc. rewrite AD by auto. pose proof (number_lt o sh c Hc). lia. }
  assert (BL : forall (m' : memory) a' b', wf_view a' -> v_simple a' = true -> v_data a' = Some b' -> fits m' a' ->
             g_shapeStrides (v_geo a') = g_strides (v_geo a') -> block m' b' (v_shape a') (v_order a') a').
  { intros m' a' b' W' S' D' F' GS. split; [apply (wv_pos a' W')|]. split; [apply (simple_block a' V m' b'); auto|].
    destruct (wf_unstrided (v_shape a') b' (v_order a') (v_order a') (wv_pos a' W')) as (t & Et & _). rewrite Et. f_equal.
    unfold view_unstrided, geo_unstrided in Et. pose proof (wv_ss a' W') as SS. pose proof (wv_size a' W') as SZ.
    destruct a' as [d' [gs gss gst gz go gm]]. unfold v_shape, v_order, v_size, v_simple in *. cbn in *. subst d' gm gz.
    destruct gs as [|s gs]; cbn [bind] in Et.
    - injection Et as <-. rewrite <- GS, SS. destruct go; reflexivity.
    - rewrite !stridesFromShape_spec in Et by discriminate. cbn [bind] in Et. injection Et as <-. rewrite order_eqb_refl, <- GS, SS. f_equal. f_equal.
      rewrite fold_left_mul, ?Nat.add_0_r. reflexivity. }
  split; [|split].
  - destruct (marray_copy_ok garbage a m W SM F) as (a' & m' & E & W' & S' & D' & Sh' & O' & L & U & K).
    exists a', m'. split; [auto|]. split; [|split; [|auto]].
    + rewrite <- Sh, <- O, <- Sh', <- O'. apply BL; auto.
      * intros c Hc. rewrite (simple_addr a' (length m)) by (auto; apply in_shape_length; auto).
        pose proof (number_lt (v_order a') (v_shape a') c Hc). rewrite L, (wv_size a W), <- Sh'. lia.
      * change (v_strides a') with (v_strides a') . pose proof (wv_simple a' W' S'). pose proof (wv_ss a' W'). unfold v_strides in *. congruence.
    + intros c Hc. rewrite !entry_addr by (auto; congruence). apply U. congruence.
  - intros b2 sh2 o2 a2 B2 DJ. destruct (block_facts m b2 sh2 o2 a2 B2) as (W2 & SM2 & D2 & Sh2 & O2 & F2 & AD2).
    destruct (marray_assign_ok garbage a a2 m W W2 SM2 SM F F2) as (a' & m' & E & W' & S' & Sh' & O' & L & F' & DD & U & K).
    { intros c d Hc Hd Q. rewrite Sh in Hc. rewrite Sh2 in Hd. specialize (IN c Hc). rewrite (AD2 d Hd) in Q. pose proof (number_lt o2 sh2 d Hd). lia. }
    destruct (v_data a') as [b'|] eqn:D'; [|destruct (wv_data a' W' D')]. exists a', m', b'. split; [auto|]. split; [|split].
    + rewrite <- Sh2, <- O2, <- Sh', <- O'. apply BL; auto. pose proof (wv_simple a' W' S'). pose proof (wv_ss a' W'). unfold v_strides in *. congruence.
    + intros c Hc. rewrite !entry_addr by (auto; congruence). apply U. congruence.
    + intros i Hi Ho. apply K; auto. intros c Hc Q. rewrite Sh in Hc. specialize (IN c Hc). lia.
  - intros v Hv I. destruct (view_of_facts V m v Hv) as (W2 & _ & F2).
    destruct (marray_assign_view_ok garbage a v m W W2 SM I F F2) as (a' & m' & E & W' & S' & Sh' & O' & L & F' & U & K).
    destruct (v_data a') as [b'|] eqn:D'; [|destruct (wv_data a' W' D')]. exists a', m', b'. split; [auto|]. split; [|split].
    + rewrite <- Sh', <- O'. apply BL; auto. pose proof (wv_simple a' W' S'). pose proof (wv_ss a' W'). unfold v_strides in *. congruence.
    + intros c Hc. rewrite !entry_addr by (auto; congruence). apply U. congruence.
    + intros i Hi Ho. apply K; auto. intros c Hc Q. rewrite Sh in Hc. specialize (IN c Hc). lia.
Qed.

(** Resizing keeps the entries with coordinates in both shapes and sets all others to the value. *)
Theorem C37_resize : forall default (m : memory) b sh o a sh' value, block m b sh o a -> positive sh' -> resizable o sh sh' ->
  exists a' m' b', resize garbage default a sh' value m = Ret (a', m') /\
    block m' b' sh' (match sh' with [] => defaultOrder | _ => o end) a' /\
    (forall c c', in_shape sh c -> in_shape sh' c' -> corresponds c c' -> entry m' a' c' = entry m a c) /\
    (forall c', in_shape sh' c' -> (forall c, in_shape sh c -> ~ corresponds c c') -> entry m' a' c' = Some value) /\
    (forall i, i < length m -> i < b \/ b + size_of sh <= i -> nth_error m' i = nth_error m i).
Proof.
  intros default m b sh o a sh' value B P' R. destruct (resize_ok garbage default m b sh o a sh' value B P' R) as (a' & m' & b' & E & B' & H1 & H2 & H3).
  destruct (block_facts _ _ _ _ _ B) as (W & _ & _ & Sh & _). destruct (block_facts _ _ _ _ _ B') as (W' & _ & _ & Sh' & _).
  exists a', m', b'. split; [auto|]. split; [auto|]. split; [|split; [|auto]].
  - intros c c' Hc Hc' C. rewrite !entry_addr by (auto; congruence). apply H1; auto.
  - intros c' Hc' N. rewrite entry_addr by (auto; congruence). apply H2; auto.
Qed.
End Entries.

Example C37_entries_case : exists a v w m',
  block (seq 100 12) 0 [3; 4] LastMajor a /\ sub_view a [0; 0] [2; 3] LastMajor = Ret v /\ sub_view a [1; 1] [2; 3] FirstMajor = Ret w /\
  overlaps v w = Ret true /\ view_of (seq 100 12) v /\ view_of (seq 100 12) w /\ iterable v /\ iterable w /\ v_shape v = v_shape w /\
  assign_data 0 v w (seq 100 12) = Ret m' /\ firstn 12 m' = [104; 105; 102; 107; 108; 105; 110; 111; 108; 109; 110; 111].
Proof.
  do 4 eexists. split; [split; [repeat constructor|split; [cbn; lia|vm_compute; reflexivity]]|]. split; [vm_compute; reflexivity|]. split; [vm_compute; reflexivity|].
  split; [vm_compute; reflexivity|]. split.
  { exists 0, [3; 4], LastMajor, LastMajor. eexists. exists [OpSub [0; 0] [2; 3] LastMajor]. split; [repeat constructor|]. split; [cbn; lia|]. split; [vm_compute; reflexivity|].
    split; [|vm_compute; reflexivity]. cbn. repeat split; auto; try (repeat constructor; fail). intros j Hj. destruct j as [|[|j]]; cbn; lia. }
  split.
  { exists 0, [3; 4], LastMajor, LastMajor. eexists. exists [OpSub [1; 1] [2; 3] FirstMajor]. split; [repeat constructor|]. split; [cbn; lia|]. split; [vm_compute; reflexivity|].
    split; [|vm_compute; reflexivity]. cbn. repeat split; auto; try (repeat constructor; fail). intros j Hj. destruct j as [|[|j]]; cbn; lia. }
  split; [right; discriminate|]. split; [right; discriminate|]. split; [reflexivity|]. split; vm_compute; reflexivity.
Qed.
Example C37_resize_case : exists a a' m', block (seq 100 6) 0 [2; 3] LastMajor a /\ resizable LastMajor [2; 3] [3; 2; 2] /\
  resize 0 0 a [3; 2; 2] 7 (seq 100 6) = Ret (a', m') /\
  map (fun c => entry m' a' c) [[0; 0; 0]; [1; 0; 0]; [2; 0; 0]; [0; 1; 0]; [1; 1; 0]; [0; 0; 1]] = [Some 100; Some 101; Some 7; Some 102; Some 103; Some 7].
Proof.
  do 3 eexists. split; [split; [repeat constructor|split; [cbn; lia|vm_compute; reflexivity]]|]. split; [right; right; left; exists 0; cbn; lia|].
  split; vm_compute; reflexivity.
Qed.

(** With more than ten dimensions and different orders, an assignment pairs the entries by their
    numbers instead of their coordinates. *)
Definition eleven : list nat := [2; 2; 1; 1; 1; 1; 1; 1; 1; 1; 1].
Theorem C37_assign_highdim_refuted : exists v w m' c,
  block (seq 0 8) 0 eleven LastMajor v /\ block (seq 0 8) 4 eleven FirstMajor w /\ v_shape v = v_shape w /\
  assign_data 0 v w (seq 0 8) = Ret m' /\ in_shape eleven c /\ entry m' v c <> entry (seq 0 8) w c.
Proof.
  do 3 eexists. exists [1; 0; 0; 0; 0; 0; 0; 0; 0; 0; 0].
  split; [split; [repeat constructor|split; [cbn; lia|vm_compute; reflexivity]]|].
  split; [split; [repeat constructor|split; [cbn; lia|vm_compute; reflexivity]]|].
  split; [reflexivity|]. split; [vm_compute; reflexivity|]. split; [unfold eleven, in_shape; repeat constructor|]. vm_compute. discriminate.
Qed.

(** Resizing between shapes that have only the first entry in common reads coordinates that do not
    exist. *)
Theorem C37_resize_refuted : exists a, block (seq 0 5) 0 [5; 1] LastMajor a /\ positive [1; 3] /\
  resize 0 0 a [1; 3] 7 (seq 0 5) = Undef.
Proof.
  eexists. split; [split; [repeat constructor|split; [cbn; lia|vm_compute; reflexivity]]|]. split; [repeat constructor|]. vm_compute. reflexivity.
Qed.

Print Assumptions C37_views.
Print Assumptions C37_views_onto.
Print Assumptions C37_index.
Print Assumptions C37_squeeze_refuted.
Print Assumptions C37_iteration.
Print Assumptions C37_iteration_back_refuted.
Print Assumptions C37_copy.
Print Assumptions C37_assign.
Print Assumptions C37_operate.
Print Assumptions C37_operate_scalar.
Print Assumptions C37_new.
Print Assumptions C37_array_assign.
Print Assumptions C37_resize.
Print Assumptions C37_assign_highdim_refuted.
Print Assumptions C37_resize_refuted.
