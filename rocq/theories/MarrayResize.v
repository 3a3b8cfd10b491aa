(** Proofs about resizing arrays. *)
From Coq Require Import Permutation.
From Verif Require Import Base ShapeSpec ShapeProofs MarrayModel MarraySpec MarrayProofs MarrayIter MarrayMem MarrayOps.

Lemma squeeze_unique : forall shape c d, in_shape shape c -> in_shape shape d ->
  map snd (filter (fun p => not1 (fst p)) (combine shape c)) = map snd (filter (fun p => not1 (fst p)) (combine shape d)) -> c = d.
Proof.
  intros shape c d H. revert d. unfold in_shape in *. induction H as [|x s c sh Hx H IH]; intros d Hd E; inversion Hd; subst; auto.
  cbn [combine filter fst] in E. destruct (not1 s) eqn:N; cbn [map snd] in E.
  - injection E as -> E. f_equal. apply IH; auto.
  - unfold not1 in N. destruct (Nat.eqb_spec s 1) as [->|]; [|discriminate]. f_equal; [lia|]. apply IH; auto.
Qed.

Lemma squeeze_simple : forall v v', squeeze v = Ret v' -> filter not1 (v_shape v) = [] -> v_strides v <> [] \/ v_shape v = [] -> length (v_strides v) = length (v_shape v) ->
  v_simple v' = v_simple v.
Proof.
  intros v v' E F _ L. unfold squeeze in E.
  assert (K : length (filter (fun p : nat * nat => negb (fst p =? 1)) (combine (v_shape v) (v_strides v))) = 0).
  { assert (Q : map fst (filter (fun p : nat * nat => not1 (fst p)) (combine (v_shape v) (v_strides v))) = []) by (rewrite kept_shape; auto).
    apply map_eq_nil in Q. change (fun p : nat * nat => negb (fst p =? 1)) with (fun p : nat * nat => not1 (fst p)). rewrite Q. auto. }
  rewrite K in E. destruct (0 =? v_dim v); [congruence|]. cbn [Nat.eqb] in E. inversion E. reflexivity.
Qed.

Lemma sub_view_strides : forall v b s o v', wf_view v -> legal_op v (OpSub b s o) -> sub_view v b s o = Ret v' ->
  v_simple v' = true <-> (s = [] \/ v_strides v = spec_strides o s).
Proof.
  intros v b s o v' W (Lb & Ls & P & I) E. unfold sub_view, coordinatesToOffset, v_dim, g_dim in E.
  change (g_shape (v_geo v)) with (v_shape v) in E.
  destruct (v_data v) as [base|] eqn:D; [|destruct (wv_data v W D)].
  rewrite <- (wv_len v W) in E. rewrite dotM_spec in E by (rewrite (wv_len v W); auto). cbn [bind shift_ptr] in E.
  rewrite (wv_len v W), <- Ls, mapM_rd_all in E. cbn [bind] in E.
  destruct (wf_strided s (v_strides v) (base + dot b (v_strides v)) o) as (v2 & E2 & W' & D' & Sh & O & St & Sm); auto.
  { rewrite (wv_len v W); auto. }
  rewrite E in E2. injection E2 as ->. destruct s as [|x s].
  - split; auto. intros _. unfold view_strided in E. cbn in E. injection E as <-. reflexivity.
  - rewrite Sm. split; auto. intros [H|H]; [discriminate|auto].
Qed.

Lemma strides_up_lined : forall sh, (forall j, S j < length sh -> nth j sh 0 = 1) -> strides_up 1 sh = repeat 1 (length sh).
Proof.
  induction sh as [|s sh IH]; intros H; [reflexivity|]. cbn [strides_up length repeat]. f_equal. rewrite Nat.mul_1_l. destruct sh as [|s2 sh2].
  - reflexivity.
  - pose proof (H 0 ltac:(cbn; lia)) as E. cbn in E. subst s. apply IH.
    intros j Hj. apply (H (S j)). cbn in *. lia.
Qed.
Lemma rev_repeat : forall (n x : nat), rev (repeat x n) = repeat x n.
Proof. induction n; intros; cbn [repeat rev]; auto. rewrite IHn. symmetry. apply repeat_cons. Qed.
Lemma spec_strides_lined : forall o sh, lined o sh -> spec_strides o sh = repeat 1 (length sh).
Proof.
  intros [] sh H; unfold spec_strides, lined in *.
  - rewrite strides_up_lined; [rewrite rev_repeat, rev_length; auto|]. rewrite rev_length. intros j Hj. rewrite rev_nth by lia.
    replace (length sh - S j) with (S (length sh - S (S j))) by lia. apply H. lia.
  - apply strides_up_lined; auto.
Qed.
Lemma lined_ones : forall o n, lined o (repeat 1 n).
Proof.
  intros o n. assert (G : forall j, j < n -> nth j (repeat 1 n) 0 = 1).
  { intros j Hj. rewrite nth_indep with (d' := 1) by (rewrite repeat_length; auto). apply nth_repeat. }
  destruct o; cbn; intros j Hj; rewrite repeat_length in Hj; apply G; lia.
Qed.

Lemma all_ones : forall sh, positive sh -> filter not1 sh = [] -> sh = repeat 1 (length sh).
Proof.
  induction sh as [|s sh IH]; intros P F; auto. inversion P; subst. cbn in F. unfold not1 in F at 1.
  destruct (Nat.eqb_spec s 1) as [->|]; cbn in F; [|discriminate]. cbn. f_equal. apply IH; auto.
Qed.
Lemma size_1_ones : forall sh, size_of sh = 1 -> sh = repeat 1 (length sh).
Proof.
  induction sh as [|s sh IH]; intros E; auto. rewrite size_of_cons in E. apply Nat.eq_mul_1 in E. destruct E as [-> E]. cbn. f_equal. auto.
Qed.
Lemma in_shape_ones : forall n c, in_shape (repeat 1 n) c -> c = repeat 0 n.
Proof.
  induction n; intros c H; cbn in *; inversion H; subst; auto. f_equal; [lia|]. apply IHn; auto.
Qed.

Section Resize.
Context {V : Type}.
Variable garbage : V.
Notation memory := (list V).

Lemma corresponds_zeros : forall n c', corresponds (repeat 0 n) c' -> c' = repeat 0 (length c').
Proof.
  intros n c' H. apply nth_ext with (d := 0) (d' := 0); [rewrite repeat_length; auto|]. intros j Hj. rewrite <- H.
  rewrite nth_repeat. symmetry. apply nth_repeat.
Qed.
Lemma corresponds_zeros_intro : forall n k, corresponds (repeat 0 n) (repeat 0 k).
Proof. intros n k j. rewrite !nth_repeat. auto. Qed.

Definition overlap_of (sh sh' : list nat) := map (fun p => Nat.min (fst p) (snd p)) (combine sh sh').
Definition pad (sh sh' : list nat) := overlap_of sh sh' ++ repeat 1 (length sh - Nat.min (length sh) (length sh')).

Lemma overlap_length : forall sh sh', length (overlap_of sh sh') = Nat.min (length sh) (length sh').
Proof. intros. unfold overlap_of. rewrite map_length, combine_length. auto. Qed.
Lemma overlap_comm : forall sh sh', overlap_of sh sh' = overlap_of sh' sh.
Proof.
  unfold overlap_of. induction sh as [|s sh IH]; intros [|s' sh']; cbn; auto. f_equal; [lia|]. apply IH.
Qed.
Lemma nth_overlap : forall sh sh' j, j < Nat.min (length sh) (length sh') -> nth j (overlap_of sh sh') 0 = Nat.min (nth j sh 0) (nth j sh' 0).
Proof.
  unfold overlap_of. induction sh as [|s sh IH]; intros [|s' sh'] j H; cbn in *; try lia. destruct j; auto. apply IH. lia.
Qed.
Lemma pad_length : forall sh sh', length (pad sh sh') = length sh.
Proof. intros. unfold pad. rewrite app_length, overlap_length, repeat_length. lia. Qed.
Lemma nth_pad : forall sh sh' j, j < length sh -> nth j (pad sh sh') 0 = if j <? length sh' then Nat.min (nth j sh 0) (nth j sh' 0) else 1.
Proof.
  intros sh sh' j H. unfold pad. destruct (Nat.ltb_spec j (length sh')).
  - rewrite app_nth1 by (rewrite overlap_length; lia). apply nth_overlap. lia.
  - rewrite app_nth2 by (rewrite overlap_length; lia). rewrite overlap_length.
    rewrite nth_indep with (d' := 1) by (rewrite repeat_length; lia). apply nth_repeat.
Qed.
Lemma positive_nth : forall sh, positive sh <-> forall j, j < length sh -> 0 < nth j sh 0.
Proof.
  intros sh. unfold positive. rewrite Forall_forall. split.
  - intros H j Hj. apply H. apply nth_In; auto.
  - intros H x Hx. destruct (In_nth sh x 0 Hx) as (j & Hj & <-). apply H; auto.
Qed.
Lemma pad_positive : forall sh sh', positive sh -> positive sh' -> positive (pad sh sh').
Proof.
  intros sh sh' P P'. apply positive_nth. intros j Hj. rewrite pad_length in Hj. rewrite nth_pad by auto.
  rewrite positive_nth in P, P'. destruct (Nat.ltb_spec j (length sh')); [|lia]. specialize (P j Hj). specialize (P' j H). lia.
Qed.
Lemma pad_le : forall sh sh' j, positive sh -> j < length sh -> nth j (pad sh sh') 0 <= nth j sh 0.
Proof.
  intros sh sh' j P Hj. rewrite nth_pad by auto. rewrite positive_nth in P. specialize (P j Hj). destruct (j <? length sh'); lia.
Qed.

Lemma filter_ones : forall n, filter not1 (repeat 1 n) = [].
Proof. induction n; cbn; auto. Qed.
Lemma pad_filter : forall sh sh', filter not1 (pad sh sh') = filter not1 (overlap_of sh sh').
Proof. intros. unfold pad. rewrite filter_app, filter_ones, app_nil_r. auto. Qed.

(** Coordinates in the common part. *)
Lemma common_iff : forall sh sh' c c', in_shape sh c -> in_shape sh' c' -> corresponds c c' -> in_shape (pad sh sh') c /\ in_shape (pad sh' sh) c'.
Proof.
  assert (G : forall sh sh' c c', in_shape sh c -> in_shape sh' c' -> corresponds c c' -> in_shape (pad sh sh') c).
  { intros sh sh' c c' H H' C. apply in_shape_nth in H, H'. destruct H as [L H], H' as [L' H']. apply in_shape_nth. rewrite pad_length. split; [auto|].
    intros j Hj. rewrite nth_pad by auto. destruct (Nat.ltb_spec j (length sh')).
    - specialize (H j Hj). specialize (H' j H0). rewrite (C j) in *. lia.
    - rewrite (C j), nth_overflow by lia. lia. }
  intros sh sh' c c' H H' C. split; [apply (G sh sh' c c'); auto|]. apply (G sh' sh c' c); auto. intros j. symmetry. apply C.
Qed.

Lemma squeezed_overlap : forall sh sh' c, in_shape (pad sh sh') c ->
  map snd (filter (fun p => not1 (fst p)) (combine (pad sh sh') c))
  = map snd (filter (fun p => not1 (fst p)) (combine (overlap_of sh sh') (firstn (Nat.min (length sh) (length sh')) c))).
Proof.
  intros sh sh' c H. unfold pad in *. apply in_shape_app in H. destruct H as (H1 & H2).
  assert (G : forall (a b c1 c2 : list nat), length a = length c1 -> combine (a ++ b) (c1 ++ c2) = combine a c1 ++ combine b c2).
  { clear. induction a as [|x a IH]; intros b [|y c1] c2 L; cbn in *; try discriminate; auto. f_equal. apply IH. lia. }
  rewrite <- (firstn_skipn (length (overlap_of sh sh')) c) at 1. rewrite G by (symmetry; apply in_shape_length; auto).
  rewrite filter_app, map_app. rewrite overlap_length in *.
  assert (F : filter (fun p : nat * nat => not1 (fst p)) (combine (repeat 1 (length sh - Nat.min (length sh) (length sh'))) (skipn (Nat.min (length sh) (length sh')) c)) = []).
  { generalize (skipn (Nat.min (length sh) (length sh')) c) as l. generalize (length sh - Nat.min (length sh) (length sh')) as n. clear.
    induction n; intros [|y l]; cbn; auto. }
  rewrite F. cbn. rewrite app_nil_r. auto.
Qed.

Lemma squeezed_corresponds : forall sh sh' c c', in_shape (pad sh sh') c -> in_shape (pad sh' sh) c' ->
  (map snd (filter (fun p => not1 (fst p)) (combine (pad sh sh') c)) = map snd (filter (fun p => not1 (fst p)) (combine (pad sh' sh) c')) <-> corresponds c c').
Proof.
  intros sh sh' c c' H H'. rewrite !squeezed_overlap by auto. rewrite (overlap_comm sh' sh). rewrite (Nat.min_comm (length sh') (length sh)).
  set (k := Nat.min (length sh) (length sh')).
  assert (IS : in_shape (overlap_of sh sh') (firstn k c)).
  { unfold pad in H. apply in_shape_app in H. rewrite overlap_length in H. apply H. }
  assert (IS' : in_shape (overlap_of sh sh') (firstn k c')).
  { unfold pad in H'. apply in_shape_app in H'. rewrite overlap_length, (overlap_comm sh' sh), Nat.min_comm in H'. apply H'. }
  pose proof H as H0. pose proof H' as H0'. apply in_shape_nth in H0, H0'. rewrite pad_length in *. destruct H0 as [L N], H0' as [L' N'].
  assert (F : firstn k c = firstn k c' <-> corresponds c c').
  { split.
    - intros E j. destruct (Nat.lt_ge_cases j k) as [Hj|Hj].
      + rewrite <- (firstn_skipn k c), <- (firstn_skipn k c'). rewrite !app_nth1 by (rewrite firstn_length; unfold k in *; lia). congruence.
      + assert (Z : forall sh sh' c, length c = length sh -> (forall j, j < length sh -> nth j c 0 < nth j (pad sh sh') 0) -> Nat.min (length sh) (length sh') <= j -> nth j c 0 = 0).
        { clear. intros sh sh' c L N Hj. destruct (Nat.lt_ge_cases j (length sh)) as [Hl|Hl].
          - specialize (N j Hl). rewrite nth_pad in N by auto. destruct (Nat.ltb_spec j (length sh')); lia.
          - apply nth_overflow. lia. }
        rewrite (Z sh sh' c), (Z sh' sh c') by (auto; unfold k in *; lia). auto.
    - intros C. apply nth_ext with (d := 0) (d' := 0).
      + rewrite !firstn_length. unfold k. lia.
      + intros j Hj. rewrite firstn_length in Hj. assert (j < k) by lia.
        specialize (C j). rewrite <- (firstn_skipn k c), <- (firstn_skipn k c') in C. rewrite !app_nth1 in C by (rewrite firstn_length; unfold k in *; lia). auto. }
  rewrite <- F. split; [|congruence]. intros E. apply (squeeze_unique (overlap_of sh sh')); auto.
Qed.

(** The coordinates of the common part that a coordinate of the new array stands for. *)
Definition partner (sh c' : list nat) : list nat := firstn (length sh) c' ++ repeat 0 (length sh - length c').
Lemma partner_ok : forall sh sh' c', positive sh -> in_shape (pad sh' sh) c' -> in_shape sh (partner sh c') /\ corresponds (partner sh c') c'.
Proof.
  intros sh sh' c' P H. apply in_shape_nth in H. rewrite pad_length in H. destruct H as [L N].
  assert (C : corresponds (partner sh c') c').
  { intros j. unfold partner. destruct (Nat.lt_ge_cases j (Nat.min (length sh) (length c'))).
    - rewrite app_nth1 by (rewrite firstn_length; lia). rewrite <- (firstn_skipn (length sh) c') at 2. rewrite app_nth1 by (rewrite firstn_length; lia). auto.
    - rewrite app_nth2 by (rewrite firstn_length; lia). rewrite firstn_length, nth_repeat.
      destruct (Nat.lt_ge_cases j (length c')) as [Hl|Hl].
      + rewrite L in Hl. specialize (N j Hl). rewrite nth_pad in N by auto. destruct (Nat.ltb_spec j (length sh)); lia.
      + rewrite nth_overflow by auto. auto. }
  split; [|auto]. apply in_shape_nth. split.
  - unfold partner. rewrite app_length, firstn_length, repeat_length. lia.
  - intros j Hj. rewrite C. rewrite positive_nth in P. specialize (P j Hj). destruct (Nat.lt_ge_cases j (length c')) as [Hl|Hl].
    + rewrite L in Hl. specialize (N j Hl). rewrite nth_pad in N by auto. destruct (Nat.ltb_spec j (length sh)); lia.
    + rewrite nth_overflow by auto. auto.
Qed.

Lemma zeros_add : forall n c, length c = n -> map (fun p => fst p + snd p) (combine (repeat 0 n) c) = c.
Proof. induction n; intros [|x c] L; cbn in *; try discriminate; auto. f_equal. apply IHn. lia. Qed.

(** The squeezed view of the common part. *)
Lemma part_view : forall v sh', wf_view v -> positive sh' ->
  exists v1 v2, sub_view v (repeat 0 (v_dim v)) (pad (v_shape v) sh') (v_order v) = Ret v1 /\ squeeze v1 = Ret v2 /\ wf_view v2 /\
    v_order v2 = v_order v /\ v_shape v2 = filter not1 (overlap_of (v_shape v) sh') /\
    (v_simple v2 = true \/ v_shape v2 <> [] \/ (v_strides v <> spec_strides (v_order v) (pad (v_shape v) sh') /\ v_shape v2 = [])) /\
    (forall e, in_shape (v_shape v2) e -> exists c, in_shape (pad (v_shape v) sh') c /\
        e = map snd (filter (fun p => not1 (fst p)) (combine (pad (v_shape v) sh') c)) /\ addr v2 e = addr v c).
Proof.
  intros v sh' W P'. pose proof (wv_pos v W) as P. unfold v_dim, g_dim. change (g_shape (v_geo v)) with (v_shape v).
  assert (LG : legal_op v (OpSub (repeat 0 (length (v_shape v))) (pad (v_shape v) sh') (v_order v))).
  { cbn [legal_op]. rewrite repeat_length, pad_length. split; [auto|]. split; [auto|]. split; [apply pad_positive; auto|].
    intros j Hj. rewrite nth_repeat. apply pad_le; auto. }
  destruct (sub_ok v _ _ _ W LG) as (v1 & E1 & W1 & S1 & O1 & H1). cbn [shape_after order_after] in S1, O1.
  destruct (squeeze_ok v1 W1) as (v2 & E2 & W2 & S2 & O2 & H2). cbn [shape_after order_after] in S2, O2.
  change (fun s : nat => negb (s =? 1)) with not1 in S2. rewrite S1, pad_filter in S2.
  exists v1, v2. split; [auto|]. split; [auto|]. split; [auto|]. split; [congruence|]. split; [auto|]. split.
  - destruct (v_shape v2) as [|x l] eqn:EV; [|right; left; discriminate].
    assert (SS : v_simple v2 = v_simple v1).
    { apply (squeeze_simple v1 v2 E2).
      - rewrite S1, pad_filter. auto.
      - destruct (v_shape v1) eqn:Z; auto. left. intros Q. pose proof (wv_len v1 W1) as L. rewrite Q, Z in L. discriminate.
      - apply (wv_len v1 W1). }
    rewrite SS. destruct (v_simple v1) eqn:Q; auto. right; right. split; auto. intros C.
    pose proof (proj2 (sub_view_strides v _ _ _ v1 W LG E1) (or_intror C)). congruence.
  - intros e He. destruct (H2 e He) as (c & A & B & C). destruct (H1 c A) as (c0 & A0 & B0 & C0). cbn [same_entry] in B, B0.
    rewrite S1 in A, B. exists c. split; [auto|]. split; [auto|]. rewrite C, C0, B0.
    rewrite zeros_add; auto. rewrite (in_shape_length _ _ A). apply pad_length.
Qed.

Lemma block_facts : forall (m : memory) b sh o a, block m b sh o a ->
  wf_view a /\ v_simple a = true /\ v_data a = Some b /\ v_shape a = sh /\ v_order a = o /\ fits m a /\
  (forall c, in_shape sh c -> addr a c = b + number o sh c).
Proof.
  intros m b sh o a (P & Hm & E). destruct (wf_unstrided sh b o o P) as (v & E' & W & D & Sh & O & St & Sm).
  rewrite E in E'. injection E' as <-.
  assert (SM : v_simple a = true).
  { destruct sh as [|s sh]; [|rewrite Sm by discriminate; apply order_eqb_refl]. unfold view_unstrided in E. cbn in E. injection E as <-. auto. }
  assert (AD : forall c, in_shape sh c -> addr a c = b + number o sh c).
  { intros c Hc. rewrite (simple_addr a b) by (auto; rewrite Sh; apply in_shape_length; auto). congruence. }
  split; [auto|]. split; [auto|]. split; [auto|]. split; [auto|]. split; [auto|]. split; [|auto].
  intros c Hc. rewrite Sh in Hc. rewrite AD by auto. pose proof (number_lt o sh c Hc). lia.
Qed.

Lemma overlap_some : forall sh sh' j, 1 < nth j sh 0 -> 1 < nth j sh' 0 -> filter not1 (overlap_of sh sh') <> [].
Proof.
  intros sh sh' j H H' C. assert (Hj : j < Nat.min (length sh) (length sh')).
  { destruct (Nat.lt_ge_cases j (length sh)); [|rewrite nth_overflow in H by auto; lia]. destruct (Nat.lt_ge_cases j (length sh')); [|rewrite nth_overflow in H' by auto; lia]. lia. }
  assert (I : In (nth j (overlap_of sh sh') 0) (filter not1 (overlap_of sh sh'))).
  { apply filter_In. split; [apply nth_In; rewrite overlap_length; auto|]. rewrite nth_overlap by auto. unfold not1.
    destruct (Nat.eqb_spec (Nat.min (nth j sh 0) (nth j sh' 0)) 1); [lia|auto]. }
  rewrite C in I. destruct I.
Qed.

Lemma unit_view : forall v sh', wf_view v -> v_simple v = true -> lined (v_order v) (v_shape v) -> positive sh' ->
  filter not1 (overlap_of (v_shape v) sh') = [] -> v_strides v = spec_strides (v_order v) (pad (v_shape v) sh').
Proof.
  intros v sh' W S L P' F. pose proof (wv_pos v W) as P. rewrite (wv_simple v W S), spec_strides_lined by auto.
  assert (O : pad (v_shape v) sh' = repeat 1 (length (v_shape v))).
  { rewrite <- (pad_length (v_shape v) sh'). apply all_ones; [apply pad_positive; auto|]. rewrite pad_filter. auto. }
  rewrite O, spec_strides_lined by apply lined_ones. rewrite repeat_length. auto.
Qed.

Lemma resizeHelper_ok : forall (m : memory) b sh o a sh' value, block m b sh o a -> positive sh' -> resizable o sh sh' ->
  exists a' m', resizeHelper garbage a sh' value m = Ret (a', m') /\ block m' (length m) sh' o a' /\
    (forall c c', in_shape sh c -> in_shape sh' c' -> corresponds c c' -> nth_error m' (addr a' c') = nth_error m (addr a c)) /\
    (forall c', in_shape sh' c' -> (forall c, in_shape sh c -> ~ corresponds c c') -> nth_error m' (addr a' c') = Some value) /\
    (forall i, i < length m -> nth_error m' i = nth_error m i).
Proof.
  intros m b sh o a sh' value Bl P' R. destruct (block_facts m b sh o a Bl) as (W & SM & D & Sh & O & Ft & AD).
  pose proof Bl as (P & Hm & _). unfold resizeHelper. rewrite D, Sh, O.
  rewrite fold_left_mul, Nat.mul_1_l. set (m1 := m ++ repeat value (size_of sh')).
  assert (L1 : length m1 = length m + size_of sh') by (unfold m1; rewrite app_length, repeat_length; auto).
  destruct (wf_unstrided sh' (length m) o o P') as (a' & Ea & _).
  assert (Bl1 : forall m' : memory, length m1 <= length m' -> block m' (length m) sh' o a').
  { intros m' L. split; [auto|]. split; [lia|auto]. }
  destruct (block_facts m1 (length m) sh' o a' (Bl1 m1 (Nat.le_refl _))) as (W' & SM' & D' & Sh' & O' & Ft' & AD').
  pose proof (size_of_pos sh P) as SP. pose proof (size_of_pos sh' P') as SP'.
  assert (NEW : forall c', in_shape sh' c' -> nth_error m1 (addr a' c') = Some value).
  { intros c' Hc. rewrite AD' by auto. unfold m1. rewrite nth_error_app2 by lia. replace (length m + number o sh' c' - length m) with (number o sh' c') by lia.
    pose proof (number_lt o sh' c' Hc) as N. revert N. generalize (number o sh' c'), (size_of sh'). clear. intros n k H. revert k H.
    induction n; intros [|k] H; try lia; cbn; auto. apply IHn. lia. }
  assert (OLD : forall i, i < length m -> nth_error m1 i = nth_error m i) by (intros i Hi; unfold m1; apply nth_error_app1; auto).
  assert (Z0 : forall v k, wf_view v -> v_data v = Some k -> addr v (repeat 0 (length (v_shape v))) = k).
  { intros v k Wv Dv. destruct (base_addr v 0 Wv) as [<- _]. apply addr_0; auto. }
  destruct (Nat.eqb (size_of sh') 1 || Nat.eqb (v_dim a) 0)%bool eqn:B1.
  - assert (Eb : rd m1 b = rd m b) by (unfold rd; rewrite OLD by lia; auto). destruct (nth_error_lt m b) as (x & Ex); [lia|].
    rewrite Eb, (rd_some _ _ _ Ex). cbn [bind]. rewrite wr_Ret by lia. cbn [bind]. rewrite Ea. cbn [bind].
    exists a', (upd m1 (length m) x). split; [auto|]. split; [apply Bl1; rewrite length_upd; auto|].
    (* which coordinates correspond: only the zeros *)
    assert (ZZ : forall c c', in_shape sh c -> in_shape sh' c' -> corresponds c c' -> c = repeat 0 (length sh) /\ c' = repeat 0 (length sh')).
    { intros c c' Hc Hc' C. apply orb_prop in B1. destruct B1 as [B1|B1]; apply Nat.eqb_eq in B1.
      - rewrite (size_1_ones sh' B1) in Hc'. apply in_shape_ones in Hc'. split; [|auto]. subst c'.
        assert (C' : corresponds (repeat 0 (length sh')) c) by (intros j; symmetry; apply C).
        apply corresponds_zeros in C'. rewrite C'. f_equal. apply in_shape_length; auto.
      - unfold v_dim, g_dim in B1. change (g_shape (v_geo a)) with (v_shape a) in B1. rewrite Sh in B1. apply length_zero_iff_nil in B1.
        rewrite B1 in Hc. rewrite B1. destruct c as [|y c]; [|inversion Hc]. split; [auto|]. pose proof (corresponds_zeros 0 c' C) as E. rewrite E. f_equal. apply in_shape_length; auto. }
    split; [|split].
    + intros c c' Hc Hc' C. destruct (ZZ c c' Hc Hc' C) as [-> ->]. rewrite <- Sh' at 1. rewrite (Z0 a' (length m)) by auto.
      rewrite nth_error_upd_eq by lia. rewrite <- Sh. rewrite (Z0 a b) by auto. auto.
    + intros c' Hc' N. rewrite nth_error_upd_neq; [apply NEW; auto|]. intros E. rewrite AD' in E by auto.
      assert (c' = repeat 0 (length sh')).
      { apply (number_inj o sh'); auto; [apply positive_in_shape_0; auto|].
        pose proof (Z0 a' (length m) W' D') as Q. rewrite Sh' in Q. rewrite AD' in Q by (apply positive_in_shape_0; auto). lia. }
      subst c'. apply (N (repeat 0 (length sh))); [apply positive_in_shape_0; auto|]. apply corresponds_zeros_intro.
    + intros i Hi. rewrite nth_error_upd_neq by lia. apply OLD; auto.
  - apply orb_false_iff in B1. destruct B1 as [B1 B2]. apply Nat.eqb_neq in B1, B2.
    assert (NE : sh <> []). { intros ->. apply B2. unfold v_dim, g_dim. change (g_shape (v_geo a)) with (v_shape a). rewrite Sh. auto. }
    destruct (part_view a sh' W P') as (v1 & v2 & E1 & E2 & W2 & O2 & S2 & I2 & H2). rewrite Sh, O in *.
    destruct (part_view a' sh W' P) as (u1 & u2 & F1 & F2 & Wu & Ou & Su & Iu & Hu). rewrite Sh', O' in *.
    rewrite (overlap_comm sh' sh) in Su.
    assert (VD : v_dim a = length sh) by (unfold v_dim, g_dim; rewrite <- Sh; auto).
    assert (VD' : v_dim a' = length sh') by (unfold v_dim, g_dim; rewrite <- Sh'; auto).
    rewrite VD in *. change (map (fun p => Nat.min (fst p) (snd p)) (combine sh sh')) with (overlap_of sh sh').
    fold (pad sh sh'). replace (overlap_of sh sh' ++ repeat 1 (length sh' - Nat.min (length sh) (length sh'))) with (pad sh' sh)
      by (unfold pad; rewrite (overlap_comm sh' sh), (Nat.min_comm (length sh') (length sh)); auto).
    rewrite E1. cbn [bind]. rewrite Ea. cbn [bind]. rewrite VD' in F1. rewrite O'. rewrite F1. cbn [bind]. rewrite E2. cbn [bind]. rewrite F2. cbn [bind].
    assert (IT : iterable v2 /\ iterable u2).
    { destruct R as [R|[R|[(j & R1 & R2)|[R1 R2]]]]; [contradiction|contradiction| |].
      - pose proof (overlap_some sh sh' j R1 R2) as NF. split; right; congruence.
      - split.
        + destruct I2 as [I2|[I2|[I2 I3]]]; [left; auto|right; auto|]. exfalso. apply I2.
          pose proof (unit_view a sh' W SM) as Q. rewrite O, Sh in Q. apply Q; auto. congruence.
        + destruct Iu as [I2'|[I2'|[I2' I3]]]; [left; auto|right; auto|]. exfalso. apply I2'.
          pose proof (unit_view a' sh W' SM') as Q. rewrite O', Sh' in Q. apply Q; auto. rewrite overlap_comm. congruence. }
    destruct IT as [IT1 IT2].
    assert (PI : forall sh sh' c, in_shape (pad sh sh') c -> positive sh -> in_shape sh c).
    { clear. intros sh sh' c H P. apply in_shape_nth in H. rewrite pad_length in H. destruct H as [L N]. apply in_shape_nth. split; auto.
      intros j Hj. pose proof (pad_le sh sh' j P Hj). specialize (N j Hj). lia. }
    destruct (assign_data_ok garbage u2 v2 m1 Wu W2) as (m' & E & L & U & K); auto.
    + congruence.
    + left; congruence.
    + intros e e' He He' Q. destruct (Hu e He) as (c & A & B & C). destruct (Hu e' He') as (c2 & A' & B' & C').
      rewrite B, B'. do 3 f_equal. apply (simple_injective a' W' SM'); rewrite ?Sh'; try congruence; eapply PI; eauto.
    + intros e He. destruct (Hu e He) as (c & A & B & C). rewrite C. apply Ft'. rewrite Sh'. eapply PI; eauto.
    + intros e He. destruct (H2 e He) as (c & A & B & C). rewrite C. assert (Q : addr a c < length m) by (apply Ft; rewrite Sh; eapply PI; eauto). lia.
    + rewrite E. cbn [bind]. try rewrite Ea. cbn [bind]. exists a', m'. split; [auto|]. split; [apply Bl1; auto|]. split; [|split].
      * intros c c' Hc Hc' C. destruct (common_iff sh sh' c c' Hc Hc' C) as [G G'].
        set (e := map snd (filter (fun p => not1 (fst p)) (combine (pad sh' sh) c'))).
        assert (He : in_shape (v_shape u2) e).
        { rewrite Su, overlap_comm, <- pad_filter. apply in_shape_filter; auto. }
        destruct (Hu e He) as (c2 & A & B & Q). destruct (H2 e ltac:(rewrite S2, <- Su; auto)) as (c1 & A1 & B1' & Q1).
        assert (c2 = c') by (apply (squeeze_unique (pad sh' sh)); auto). subst c2.
        assert (c1 = c).
        { apply (squeeze_unique (pad sh sh')); auto. rewrite <- B1'. unfold e. symmetry. apply squeezed_corresponds; auto. }
        subst c1. rewrite <- Q, U by auto. rewrite Q1. apply OLD. apply Ft. rewrite Sh. auto.
      * intros c' Hc' N. rewrite K.
        -- apply NEW; auto.
        -- apply Ft'. rewrite Sh'. auto.
        -- intros e He Q. destruct (Hu e He) as (c2 & A & B & Q2).
           assert (c2 = c').
           { apply (simple_injective a' W' SM'); rewrite ?Sh'; auto; [eapply PI; eauto|congruence]. }
           subst c2. destruct (partner_ok sh sh' c' P A) as [G1 G2]. exact (N _ G1 G2).
      * intros i Hi. rewrite K; [apply OLD; auto|lia|].
        intros e He Q. destruct (Hu e He) as (c2 & A & B & Q2). rewrite Q2 in Q. rewrite AD' in Q by (eapply PI; eauto). lia.
Qed.

Lemma resize_ok : forall default (m : memory) b sh o a sh' value, block m b sh o a -> positive sh' -> resizable o sh sh' ->
  exists a' m' b', resize garbage default a sh' value m = Ret (a', m') /\
    block m' b' sh' (match sh' with [] => defaultOrder | _ => o end) a' /\
    (forall c c', in_shape sh c -> in_shape sh' c' -> corresponds c c' -> nth_error m' (addr a' c') = nth_error m (addr a c)) /\
    (forall c', in_shape sh' c' -> (forall c, in_shape sh c -> ~ corresponds c c') -> nth_error m' (addr a' c') = Some value) /\
    (forall i, i < length m -> i < b \/ b + size_of sh <= i -> nth_error m' i = nth_error m i).
Proof.
  intros default m b sh o a sh' value Bl P' R. unfold resize. destruct sh' as [|s sh'].
  - destruct (block_facts m b sh o a Bl) as (W & SM & D & Sh & O & Ft & AD). pose proof Bl as (P & Hm & _).
    pose proof (size_pos a W) as SP. destruct (Nat.ltb_spec 0 (v_size a)); [|lia]. rewrite at_index_spec by auto. cbn [bind].
    fold (nth_addr a 0). rewrite (addr_0 a b) by auto. pose proof (size_of_pos sh P). destruct (nth_error_lt m b) as (x & Ex); [lia|].
    rewrite (rd_some _ _ _ Ex). cbn [bind marray_scalar].
    set (t := View (Some (length m)) (geo_scalar defaultOrder)). set (m1 := m ++ [x]).
    assert (Bt : block m1 (length m) [] defaultOrder t).
    { split; [constructor|]. split; [unfold m1; rewrite app_length; cbn; lia|]. reflexivity. }
    destruct (block_facts _ _ _ _ _ Bt) as (Wt & SMt & Dt & Sht & Ot & Ftt & ADt).
    destruct (marray_assign_ok garbage a t m1 W Wt SMt SM) as (a' & m' & E & W' & S' & Sh' & O' & L & F' & DD & U & K); auto.
    + intros c Hc. specialize (Ft c Hc). unfold m1. rewrite app_length. lia.
    + intros c d Hc Hd Q. rewrite ADt in Q by auto. specialize (Ft c Hc). lia.
    + assert (GE : v_geo a' = v_geo t).
      { unfold marray_assign in E. rewrite Dt in E.
        destruct (match v_data a with Some p => if v_size a =? v_size t then (p, m1) else alloc garbage m1 (v_size t) | None => alloc garbage m1 (v_size t) end) as [d mm].
        destruct (copyM _ d (length m) (v_size t) mm) eqn:CC; cbn [bind] in E; try discriminate. injection E as <- _. auto. }
      assert (BB : exists b', block m' b' [] defaultOrder a').
      { destruct (v_data a') as [b'|] eqn:Da'; [|destruct (wv_data a' W' Da')]. exists b'. split; [constructor|]. split.
        - pose proof (F' [] ltac:(rewrite Sh'; constructor)) as Q. unfold addr in Q. rewrite Da' in Q. cbn in Q. cbn. lia.
        - destruct a'; cbn in *. subst. reflexivity. }
      destruct BB as (b' & BB). exists a', m', b'. split; [auto|]. split; [auto|].
      assert (NX : nth_error m' (addr a' []) = Some x).
      { rewrite U by constructor. rewrite ADt by constructor. cbn. unfold m1. rewrite nth_error_app2 by lia. replace (length m + 0 - length m) with 0 by lia. reflexivity. }
      split; [|split].
      * intros c c' Hc Hc' C. inversion Hc'; subst c'. rewrite NX. symmetry.
        assert (C' : corresponds (repeat 0 0) c) by (intros j; symmetry; apply C). apply corresponds_zeros in C'. rewrite C', (in_shape_length _ _ Hc).
        destruct (base_addr a 0 W) as [Q _]. rewrite Sh in Q. rewrite <- Q, (addr_0 a b) by auto. auto.
      * intros c' Hc' N. inversion Hc'; subst c'. exfalso. apply (N (repeat 0 (length sh))); [apply positive_in_shape_0; auto|]. apply (corresponds_zeros_intro _ 0).
      * intros i Hi Ho. rewrite K; [unfold m1; apply nth_error_app1; auto| |].
        -- unfold m1. rewrite app_length. lia.
        -- intros c Hc Q. rewrite Sh in Hc. rewrite AD in Q by auto. pose proof (number_lt o sh c Hc). lia.
  - destruct (resizeHelper_ok m b sh o a (s :: sh') value Bl P' R) as (a' & m' & E & B' & H1 & H2 & H3). exists a', m', (length m). auto 8.
Qed.
End Resize.

(** * Operations that keep all entries *)
Lemma select_inj : forall (c d p : list nat) n, Permutation p (seq 0 n) -> length c = n -> length d = n -> select c p = select d p -> c = d.
Proof.
  intros c d p n Pm Lc Ld E. destruct (perm_seq_facts p n Pm) as (Lp & ND & F & I).
  apply nth_ext with (d := 0) (d' := 0); [congruence|]. intros i Hi. destruct (nth_pos_of p i (I i ltac:(lia))) as [A B].
  apply (f_equal (fun l => nth (pos_of i p) l 0)) in E. rewrite !nth_select in E by auto. rewrite B in E. auto.
Qed.
Lemma same_entry_fun : forall v op c d c', legal_op v op -> in_shape (v_shape v) c -> in_shape (v_shape v) d ->
  same_entry op (v_order v) (v_shape v) c c' -> same_entry op (v_order v) (v_shape v) d c' -> c = d.
Proof.
  intros v op c d c' Lg Hc Hd A B. pose proof (in_shape_length _ _ Hc) as Lc. pose proof (in_shape_length _ _ Hd) as Ld.
  destruct op; cbn [same_entry legal_op] in *; try congruence.
  - apply (number_inj (v_order v) (v_shape v)); auto. congruence.
  - apply (squeeze_unique (v_shape v)); auto. change (fun p : nat * nat => not1 (fst p)) with (fun p : nat * nat => negb (fst p =? 1)). congruence.
  - apply (select_inj c d p (length (v_shape v))); auto; [tauto|congruence].
  - apply (select_inj c d _ (length (v_shape v)) (exchange_perm _ c1 c2 (proj1 Lg) (proj2 Lg))); auto; congruence.
  - rewrite <- (rev_involutive c), <- (rev_involutive d). congruence.
  - assert (Hn : 0 < length (v_shape v)) by (destruct (v_shape v); [congruence|cbn; lia]).
    apply (select_inj c d _ (length (v_shape v)) (rotated_perm n _ Hn)); auto; congruence.
Qed.
Lemma run_onto : forall ops v v', wf_view v -> legal_ops v ops -> forallb keeps_all ops = true -> vrun ops v = Ret v' ->
  forall c, in_shape (v_shape v) c ->
  exists c', in_shape (shape_run ops (v_shape v)) c' /\ same_entry_run ops (v_order v) (v_shape v) c c' /\ addr v' c' = addr v c.
Proof.
  induction ops as [|op ops IH]; intros v v' W Lg K E c Hc.
  - injection E as <-. exists c. repeat split; auto.
  - destruct Lg as [L1 L2]. cbn in K. apply andb_prop in K. destruct K as [K1 K2].
    destruct (step_spec v op W L1) as (v1 & E1 & W1 & S1 & O1 & H1). unfold vrun in E. cbn [foldM] in E. rewrite E1 in E. cbn [bind] in E.
    destruct (same_entry_onto v op c W L1 K1 Hc) as (d & Hd & SE). rewrite <- S1 in Hd.
    destruct (H1 d Hd) as (c2 & A & B & C). assert (c2 = c) by (apply (same_entry_fun v op c2 c d); auto). subst c2.
    destruct (IH v1 v' W1 (L2 v1 E1) K2 E d Hd) as (c' & A' & B' & C'). exists c'. rewrite S1, O1 in *. cbn [shape_run same_entry_run].
    split; [auto|]. split; [|congruence]. exists d. auto.
Qed.

(** * Views of a memory *)
Lemma view_of_facts : forall V (m : list V) v, view_of m v -> wf_view v /\ injective v /\ fits m v.
Proof.
  intros V m v (b & shape & o & int & v0 & ops & P & Hm & E0 & Lg & E).
  destruct (wf_unstrided shape b o int P) as (v1 & E1 & W & D & Sh & O & St & _). rewrite E0 in E1. injection E1 as <-.
  destruct (run_spec ops v0 W Lg) as (v2 & E2 & W' & Sh' & O' & H). rewrite E in E2. injection E2 as <-.
  assert (A0 : forall c, in_shape shape c -> addr v0 c = b + number o shape c).
  { intros c Hc. unfold addr. rewrite D, St, dot_spec_strides by (apply in_shape_length; auto). auto. }
  rewrite Sh, O in *. split; [auto|]. split.
  - intros c1 c2 H1 H2 Q. destruct (H c1 H1) as (d1 & A1 & B1 & C1). destruct (H c2 H2) as (d2 & A2 & B2 & C2).
    assert (d1 = d2). { apply (number_inj o shape); auto. rewrite C1, C2, !A0 in Q by auto. lia. }
    subst d2. rewrite Sh' in H1, H2. rewrite <- Sh, <- O in *. apply (run_inj ops v0 d1); auto.
  - intros c Hc. destruct (H c Hc) as (d & A & B & C). rewrite C, A0 by auto. pose proof (number_lt o shape d A). lia.
Qed.
Lemma block_view_of : forall V (m : list V) b sh o a, block m b sh o a -> view_of m a.
Proof. intros V m b sh o a (P & Hm & E). exists b, sh, o, o, a, []. repeat split; auto. Qed.

Lemma entry_addr : forall V (m : list V) v c, wf_view v -> in_shape (v_shape v) c -> entry m v c = nth_error m (addr v c).
Proof. intros V m v c W H. unfold entry. rewrite at_coord_spec by (auto; apply in_shape_length; auto). auto. Qed.
Lemma touches_addr : forall v a, wf_view v -> ~ touches v a -> forall c, in_shape (v_shape v) c -> addr v c <> a.
Proof. intros v a W N c Hc E. apply N. exists c. split; auto. rewrite at_coord_spec by (auto; apply in_shape_length; auto). congruence. Qed.
Lemma simple_block : forall v (V : Type) (m : list V) b, wf_view v -> v_simple v = true -> v_data v = Some b -> fits m v ->
  b + size_of (v_shape v) <= length m.
Proof.
  intros v V m b W S D F. pose proof (size_pos v W) as SP. pose proof (nth_coord_in_shape (v_order v) (v_shape v) (v_size v - 1) (wv_pos v W)) as H.
  specialize (F _ H). rewrite (addr_simple v (v_size v - 1) W S) in F by lia. fold (nth_addr v 0) in F. rewrite (addr_0 v b W D) in F.
  rewrite (wv_size v W) in *. lia.
Qed.

(** * Iterator histories *)
Lemma istep_ok : forall v k i op, wf_view v -> iterable v -> it_ok v k i -> legal_iop v k op ->
  exists i', istep v i op = Ret i' /\ it_ok v (position_after (v_size v) k op) i'.
Proof.
  intros v k i op W I O L. destruct op; cbn [istep position_after legal_iop] in *.
  - apply it_next_ok; auto.
  - apply it_prev_ok; tauto.
  - apply it_add_ok; auto.
  - apply it_sub_ok; tauto.
Qed.
Lemma irun_ok : forall v ops k i, wf_view v -> iterable v -> it_ok v k i -> legal_iops v k ops ->
  exists i', irun v ops i = Ret i' /\ it_ok v (fold_left (position_after (v_size v)) ops k) i'.
Proof.
  intros v ops. induction ops as [|op ops IH]; intros k i W I O L.
  - exists i. auto.
  - destruct L as [L1 L2]. destruct (istep_ok v k i op W I O L1) as (i1 & E1 & O1).
    destruct (IH _ i1 W I O1 L2) as (i2 & E2 & O2). exists i2. split; auto. unfold irun in *. cbn [foldM]. rewrite E1. auto.
Qed.
