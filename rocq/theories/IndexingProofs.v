(** Proofs about the walkers. *)
From Coq Require Import Sorted.
From Verif Require Import Base ShapeSpec ShapeProofs IndexingModel.

#[local] Arguments nth_error : simpl never.
#[local] Arguments Nat.div : simpl never.
#[local] Arguments Nat.modulo : simpl never.

Lemma nth_error_app_mid : forall A (l r : list A) x, nth_error (l ++ x :: r) (length l) = Some x.
Proof. intros. rewrite nth_error_app2, Nat.sub_diag; auto. Qed.
Lemma rd_app_mid : forall A (l r : list A) x d, d = length l -> rd (l ++ x :: r) d = Ret x.
Proof. intros. subst. unfold rd. rewrite nth_error_app_mid. auto. Qed.
Lemma upd_app_mid : forall A (l r : list A) x y d, d = length l -> upd (l ++ x :: r) d y = l ++ y :: r.
Proof. intros A l r x y d ->. induction l; cbn; auto. f_equal. auto. Qed.
Lemma wr_app_mid : forall A (l r : list A) x y d, d = length l -> wr (l ++ x :: r) d y = Ret (l ++ y :: r).
Proof.
  intros. rewrite wr_Ret.
  - rewrite upd_app_mid; auto.
  - rewrite app_length; cbn; lia.
Qed.

Lemma foldM_seq_S : forall S (f : S -> nat -> outcome S) a n s,
  foldM f (seq a (Datatypes.S n)) s = bind (foldM f (seq a n) s) (fun s' => f s' (a + n)).
Proof.
  intros. rewrite seq_S, foldM_app. destruct (foldM f (seq a n) s); cbn; auto.
  destruct (f a0 (a + n)); auto.
Qed.

(** * ShapeWalker *)
Lemma sw_loop_spec : forall sh dim spre pre k,
  positive sh -> length pre = length spre -> dim = length spre + length sh -> S k < size_of sh ->
  sw_loop dim (spre ++ sh) (seq (length spre) (length sh)) (pre ++ coord_of sh k)
  = Ret (pre ++ coord_of sh (S k)).
Proof.
  induction sh as [|s sh IH]; intros dim spre pre k HP HL HD HK; cbn [size_of fold_right] in HK; [lia|].
  fold (size_of sh) in HK. apply Forall_cons_iff in HP. destruct HP as [Hs HPs].
  cbn [length] in HD. cbn [length seq sw_loop coord_of]. rewrite !rd_app_mid by auto. cbn [bind].
  destruct (Nat.eqb_spec (S (k mod s)) s) as [E|E]; cbn [negb].
  - destruct (div_S_wrap k s) as [D M]; auto.
    assert (HK' : S (k / s) < size_of sh).
    { rewrite <- D. apply Nat.div_lt_upper_bound; lia. }
    destruct sh as [|s' sh].
    { cbn in HK'. lia. }
    cbn [length] in HD. destruct (Nat.eqb_spec (S (length spre)) dim); [lia|].
    cbn [negb]. rewrite wr_app_mid by auto. cbn [bind].
    specialize (IH dim (spre ++ [s]) (pre ++ [0]) (k / s)).
    rewrite !app_length in IH. rewrite <- !app_assoc in IH. cbn [app length] in IH.
    replace (S (length spre)) with (length spre + 1) by lia.
    cbn [length]. rewrite IH; auto; try lia.
    rewrite M, D. auto.
  - rewrite wr_app_mid by auto. destruct (div_S_nowrap k s) as [-> ->]; auto.
Qed.

Lemma sw_next_spec : forall shape k, positive shape -> S k < size_of shape ->
  sw_next shape (coord_of shape k) (length shape) = Ret (coord_of shape (S k)).
Proof.
  intros. unfold sw_next. apply (sw_loop_spec shape (length shape) [] [] k); auto.
Qed.

Lemma sw_run_spec : forall shape k, positive shape -> k < size_of shape ->
  sw_run shape (length shape) k = Ret (coord_of shape k).
Proof.
  intros shape k HP. induction k; intros HK; unfold sw_run in *.
  - cbn [seq foldM]. unfold sw_init. rewrite coord_of_0; auto.
  - rewrite foldM_seq_S, IHk by lia. cbn [bind]. apply sw_next_spec; auto.
Qed.

(** * ShapeWalkerSwitchedOrder *)
Lemma so_loop_spec : forall sh spost post k,
  positive sh -> S k < size_of sh ->
  so_loop (rev sh ++ spost) (pred (length sh)) (rev (coord_of sh k) ++ post)
  = Ret (rev (coord_of sh (S k)) ++ post).
Proof.
  induction sh as [|s sh IH]; intros spost post k HP HK; cbn [size_of fold_right] in HK; [lia|].
  fold (size_of sh) in HK. inversion HP; subst.
  cbn [length pred coord_of rev]. rewrite <- !app_assoc. cbn [app].
  assert (R : forall (d : nat) spost' post', d = length sh ->
     so_loop (rev sh ++ s :: spost') d (rev (coord_of sh (k / s)) ++ k mod s :: post')
     = Ret (rev (coord_of sh (S k / s)) ++ S k mod s :: post')); [|apply R; auto].
  intros d spost' post' Hd.
  assert (L1 : d = length (rev (coord_of sh (k / s)))) by (rewrite rev_length, coord_of_length; auto).
  assert (L2 : d = length (rev sh)) by (rewrite rev_length; auto).
  destruct d as [|d]; cbn [so_loop]; rewrite !rd_app_mid by auto; cbn [bind];
    destruct (Nat.eqb_spec (S (k mod s)) s) as [E|E]; cbn [negb].
  - destruct sh; [|discriminate]. cbn in HK. rewrite Nat.mod_small in E; lia.
  - rewrite wr_app_mid by auto. destruct (div_S_nowrap k s) as [-> ->]; auto.
  - destruct (div_S_wrap k s) as [D M]; auto. rewrite wr_app_mid by auto. cbn [bind].
    rewrite M, D. replace d with (pred (length sh)) by lia. apply IH; auto.
    rewrite <- D. apply Nat.div_lt_upper_bound; lia.
  - rewrite wr_app_mid by auto. destruct (div_S_nowrap k s) as [-> ->]; auto.
Qed.

Lemma size_of_app : forall a b, size_of (a ++ b) = size_of a * size_of b.
Proof.
  induction a as [|x a IH]; intros b; [cbn [app]; change (size_of []) with 1; lia|]. cbn [app]. change (x * size_of (a ++ b) = x * size_of a * size_of b).
  rewrite IH. lia.
Qed.
Lemma size_of_rev : forall a, size_of (rev a) = size_of a.
Proof.
  induction a as [|x a IH]; auto. cbn [rev]. rewrite size_of_app, IH. change (size_of a * (x * 1) = x * size_of a). lia.
Qed.
Lemma positive_rev : forall a, positive a -> positive (rev a).
Proof. intros. apply Forall_rev; auto. Qed.

Lemma so_next_spec : forall shape k, positive shape -> S k < size_of shape ->
  so_next shape (rev (coord_of (rev shape) k)) (length shape) = Ret (rev (coord_of (rev shape) (S k))).
Proof.
  intros shape k HP HK. unfold so_next. destruct (length shape) eqn:E.
  - destruct shape; [cbn in HK; lia|discriminate].
  - pose proof (so_loop_spec (rev shape) [] [] k (positive_rev _ HP)) as H.
    rewrite size_of_rev, rev_involutive, !app_nil_r, rev_length, E in H. apply H; auto.
Qed.

Lemma so_run_spec : forall shape k, positive shape -> k < size_of shape ->
  so_run shape (length shape) k = Ret (rev (coord_of (rev shape) k)).
Proof.
  intros shape k HP. induction k; intros HK; unfold so_run in *.
  - cbn [seq foldM]. rewrite coord_of_0 by (apply positive_rev; auto). rewrite rev_length.
    unfold sw_init. f_equal. clear. induction (length shape) as [|n IH]; auto.
    cbn [repeat rev]. rewrite <- IH. clear. induction n; cbn; congruence.
  - rewrite foldM_seq_S, IHk by lia. cbn [bind]. apply so_next_spec; auto.
Qed.

(** * SubShapeWalker *)
Lemma fold_left_nth_skipn : forall A S (f : S -> A -> S) (l : list A) d a s,
  fold_left (fun st i => f st (nth i l d)) (seq a (length l - a)) s = fold_left f (skipn a l) s.
Proof.
  intros A S f l d. induction l as [|x l IH]; intros a s; [destruct a; auto|].
  destruct a as [|a].
  - cbn [length Nat.sub seq fold_left skipn]. cbn [nth].
    rewrite <- seq_shift, <- (IH 0).
    rewrite Nat.sub_0_r. cbn [skipn]. generalize (f s x).
    induction (seq 0 (length l)); intros; cbn; auto.
  - cbn [length Nat.sub skipn]. rewrite <- (IH a). rewrite <- seq_shift. revert s.
    induction (seq a (length l - a)); intros; cbn; auto.
Qed.

Lemma existsb_nth_skipn : forall A (f : A -> bool) (l : list A) d a,
  existsb (fun i => f (nth i l d)) (seq a (length l - a)) = existsb f (skipn a l).
Proof.
  intros A f l d. induction l as [|x l IH]; intros a; [destruct a; auto|].
  destruct a as [|a].
  - cbn [length Nat.sub seq existsb skipn nth]. f_equal.
    rewrite <- seq_shift. specialize (IH 0). cbn [skipn] in IH. rewrite <- IH, Nat.sub_0_r.
    induction (seq 0 (length l)); cbn; auto. f_equal; auto.
  - cbn [length Nat.sub skipn]. rewrite <- (IH a). rewrite <- seq_shift.
    induction (seq a (length l - a)); cbn; auto. f_equal; auto.
Qed.

Definition isfix (fi : list nat) (d : nat) : bool := existsb (Nat.eqb d) fi.
Lemma isfix_In : forall fi d, isfix fi d = true <-> In d fi.
Proof.
  intros. unfold isfix. rewrite existsb_exists. split.
  - intros [x [H1 H2]]. apply Nat.eqb_eq in H2. subst; auto.
  - intros. exists d. split; auto. apply Nat.eqb_refl.
Qed.

(** [counter] fixed indices are below d, the others are not. *)
Definition cut (fi : list nat) (counter d : nat) : Prop :=
  Forall (fun x => x < d) (firstn counter fi) /\ Forall (fun x => d <= x) (skipn counter fi) /\ counter <= length fi.

Lemma cut_0 : forall fi, cut fi 0 0.
Proof.
  intros. split; [constructor|]. split; [|lia]. apply Forall_forall. intros; lia.
Qed.

Lemma scan_noop : forall d l (st : bool * nat), Forall (fun x => d < x) l ->
  fold_left (fun (st : bool * nat) x => if Nat.eqb d x then (true, S (snd st)) else st) l st = st.
Proof.
  intros d l st H. revert st. induction H; intros; cbn; auto.
  destruct (Nat.eqb_spec d x); [lia|]. auto.
Qed.

Lemma firstn_S_skipn : forall A (l : list A) c x r, skipn c l = x :: r -> firstn (S c) l = firstn c l ++ [x] /\ skipn (S c) l = r.
Proof.
  intros A l. induction l as [|y l IH]; intros [|c] x r H; try discriminate.
  - cbn in H. injection H as -> ->. auto.
  - cbn [skipn] in H. destruct (IH _ _ _ H) as [A1 A2]. split.
    + cbn [firstn app] in *. rewrite <- A1. auto.
    + exact A2.
Qed.

Lemma sorted_skipn : forall l c, StronglySorted lt l -> StronglySorted lt (skipn c l).
Proof.
  induction l as [|x l IH]; intros [|c] H; cbn; auto. apply IH. inversion H; auto.
Qed.

Lemma cut_step : forall fi counter d, StronglySorted lt fi -> cut fi counter d ->
  (isfix fi d = true /\ (exists r, skipn counter fi = d :: r /\ Forall (fun x => d < x) r) /\ cut fi (S counter) (S d)) \/
  (isfix fi d = false /\ Forall (fun x => d < x) (skipn counter fi) /\ cut fi counter (S d)).
Proof.
  intros fi counter d HS [H1 [H2 H3]]. pose proof (sorted_skipn fi counter HS) as HS2.
  assert (HI : isfix fi d = isfix (skipn counter fi) d).
  { unfold isfix. rewrite <- (firstn_skipn counter fi) at 1. rewrite existsb_app.
    replace (existsb (Nat.eqb d) (firstn counter fi)) with false; auto. symmetry.
    rewrite <- not_true_iff_false, existsb_exists. intros [x [A B]]. apply Nat.eqb_eq in B. subst.
    rewrite Forall_forall in H1. apply H1 in A. lia. }
  rewrite HI. unfold isfix.
  destruct (skipn counter fi) as [|x r] eqn:E.
  { right. split; auto. split; [constructor|]. split; [|split; [rewrite E; constructor|auto]].
    eapply Forall_impl; [|exact H1]. intros; cbn in *; lia. }
  inversion HS2; subst. inversion H2; subst.
  destruct (Nat.eq_dec d x) as [<-|N].
  - left. split; [cbn; rewrite Nat.eqb_refl; auto|]. split; [exists r; auto|].
    destruct (firstn_S_skipn _ _ _ _ _ E) as [F1 F2]. split; [|split].
    + rewrite F1. apply Forall_app. split; [|repeat constructor].
      eapply Forall_impl; [|exact H1]. intros; cbn in *; lia.
    + rewrite F2. eapply Forall_impl; [|exact H5]. intros; cbn in *; lia.
    + assert (length (skipn counter fi) = length (d :: r)) by congruence. rewrite skipn_length in H. cbn in H. lia.
  - right. assert (G : Forall (fun y => d < y) (x :: r)).
    { constructor; [lia|]. eapply Forall_impl; [|exact H5]. intros; cbn in *; lia. }
    split.
    + rewrite <- not_true_iff_false, existsb_exists. intros [y [A B]]. apply Nat.eqb_eq in B. subst.
      rewrite Forall_forall in G. apply G in A. lia.
    + split; auto. split; [|split; auto].
      * eapply Forall_impl; [|exact H1]. intros; cbn in *; lia.
      * rewrite E. eapply Forall_impl; [|exact G]. intros; cbn in *; lia.
Qed.

Lemma ssw_scan_spec : forall fi counter d, StronglySorted lt fi -> cut fi counter d ->
  exists counter', ssw_scan fi counter d = (isfix fi d, counter') /\ cut fi counter' (S d).
Proof.
  intros fi counter d HS HC. unfold ssw_scan.
  rewrite (fold_left_nth_skipn _ _ (fun (st : bool * nat) x => if Nat.eqb d x then (true, S (snd st)) else st)).
  destruct (cut_step _ _ _ HS HC) as [[E [[r [K1 K2]] C]]|[E [K C]]]; rewrite E.
  - rewrite K1. cbn [fold_left]. rewrite Nat.eqb_refl. rewrite scan_noop by auto. eexists; split; eauto.
  - rewrite scan_noop by auto. eexists; split; eauto.
Qed.

Lemma ssw_scan1_spec : forall fi counter d, StronglySorted lt fi -> cut fi counter d ->
  exists counter', ssw_scan1 fi counter d = (isfix fi d, counter') /\ cut fi counter' (S d).
Proof.
  intros fi counter d HS HC. unfold ssw_scan1.
  rewrite (existsb_nth_skipn _ (Nat.eqb d)).
  destruct (cut_step _ _ _ HS HC) as [[E [[r [K1 K2]] C]]|[E [K C]]]; rewrite E.
  - rewrite K1. cbn [existsb]. rewrite Nat.eqb_refl. cbn. eexists; split; eauto.
  - replace (existsb (Nat.eqb d) (skipn counter fi)) with false.
    + eexists; split; eauto.
    + symmetry. rewrite <- not_true_iff_false, existsb_exists. intros [y [A B]]. apply Nat.eqb_eq in B. subst.
      rewrite Forall_forall in K. apply K in A. lia.
Qed.

(** Free positions among d, d+1, ..., d+m-1. *)
Definition frees (fi : list nat) (d m : nat) : list nat := filter (fun i => negb (isfix fi i)) (seq d m).

Lemma frees_ge : forall fi d m i, In i (frees fi d m) -> d <= i < d + m.
Proof. intros. apply filter_In in H. destruct H. apply in_seq in H. lia. Qed.

Lemma map_nth_upd_notin : forall (c : list nat) i v l, ~ In i l ->
  map (fun j => nth j (upd c i v) 0) l = map (fun j => nth j c 0) l.
Proof.
  intros. apply map_ext_in. intros j Hj. rewrite nth_upd_neq; auto. intros ->. auto.
Qed.

Lemma positive_map : forall shape l, positive shape -> (forall i, In i l -> i < length shape) ->
  positive (map (fun j => nth j shape 0) l).
Proof.
  intros shape l HP HL. apply Forall_forall. intros x Hx. apply in_map_iff in Hx.
  destruct Hx as [j [<- Hj]]. unfold positive in HP. rewrite Forall_forall in HP. apply HP. apply nth_In. auto.
Qed.

Lemma ssw_loop_spec : forall shape fi n, positive shape -> length shape = n -> StronglySorted lt fi ->
  forall m d counter c k, d + m = n -> length c = n -> cut fi counter d ->
  map (fun j => nth j c 0) (frees fi d m) = coord_of (map (fun j => nth j shape 0) (frees fi d m)) k ->
  S k < size_of (map (fun j => nth j shape 0) (frees fi d m)) ->
  exists c', ssw_loop n shape fi (seq d m) counter c = Ret c' /\ length c' = n /\
    map (fun j => nth j c' 0) (frees fi d m) = coord_of (map (fun j => nth j shape 0) (frees fi d m)) (S k) /\
    (forall i, i < d \/ isfix fi i = true -> nth i c' 0 = nth i c 0).
Proof.
  intros shape fi n HP HLs HS. induction m as [|m IH]; intros d counter c k HD HL HC HM HK.
  { cbn in HK. lia. }
  cbn [seq ssw_loop]. destruct (ssw_scan_spec _ _ _ HS HC) as [counter' [E C']]. rewrite E.
  assert (EF : frees fi d (S m) = if isfix fi d then frees fi (S d) m else d :: frees fi (S d) m).
  { unfold frees. cbn [seq filter]. destruct (isfix fi d); auto. }
  rewrite EF in *. destruct (isfix fi d) eqn:EI.
  - destruct (IH (S d) counter' c k) as [c' [R1 [R2 [R3 R4]]]]; auto; try lia.
    exists c'. split; auto. split; auto. split; auto. intros i Hi. apply R4. destruct Hi; auto.
  - cbn [map coord_of] in *. injection HM as HM1 HM2.
    cbn [size_of fold_right] in HK. fold (size_of (map (fun j => nth j shape 0) (frees fi (S d) m))) in HK.
    set (s := nth d shape 0) in *. set (fs := map (fun j => nth j shape 0) (frees fi (S d) m)) in *.
    assert (Hs : 0 < s).
    { unfold positive in HP. rewrite Forall_forall in HP. apply HP. apply nth_In. lia. }
    rewrite (rd_nth _ c d 0) by lia. rewrite (rd_nth _ shape d 0) by lia. cbn [bind]. rewrite HM1. fold s.
    assert (NI : ~ In d (frees fi (S d) m)).
    { intros Hin. apply frees_ge in Hin. lia. }
    assert (PF : positive fs).
    { apply positive_map; auto. intros i Hi. apply frees_ge in Hi. lia. }
    destruct (Nat.eqb_spec (S (k mod s)) s) as [E1|E1]; cbn [negb].
    + destruct (div_S_wrap k s) as [D M]; auto.
      assert (HK' : S (k / s) < size_of fs) by (rewrite <- D; apply Nat.div_lt_upper_bound; lia).
      assert (Hm : S d <> n).
      { intros HSd. assert (m = 0) by lia. subst m. cbn in fs. subst fs. cbn in HK'. lia. }
      apply Nat.eqb_neq in Hm. rewrite Hm. cbn [negb]. rewrite wr_Ret by lia. cbn [bind].
      destruct (IH (S d) counter' (upd c d 0) (k / s)) as [c' [R1 [R2 [R3 R4]]]]; auto; try lia.
      { rewrite length_upd; auto. }
      { rewrite map_nth_upd_notin; auto. }
      exists c'. split; auto. split; auto. split.
      * rewrite M, D. f_equal; auto. rewrite R4 by lia. apply nth_upd_eq. lia.
      * intros i Hi. assert (i <> d) by (intros ->; destruct Hi; [lia|congruence]).
        rewrite R4 by (destruct Hi; auto). apply nth_upd_neq. auto.
    + rewrite wr_Ret by lia. exists (upd c d (S (k mod s))). split; auto. split; [rewrite length_upd; auto|]. split.
      * destruct (div_S_nowrap k s) as [-> ->]; auto. rewrite nth_upd_eq by lia. f_equal.
        rewrite map_nth_upd_notin; auto.
      * intros i Hi. assert (i <> d) by (intros ->; destruct Hi; [lia|congruence]). apply nth_upd_neq. auto.
Qed.

(** What the k-th state of a SubShapeWalker has to be. *)
Definition ssw_state (shape fi fv : list nat) (k : nat) (c : list nat) : Prop :=
  let free := filter (fun i => negb (existsb (Nat.eqb i) fi)) (seq 0 (length shape)) in
  length c = length shape /\
  (forall j, j < length fi -> nth (nth j fi 0) c 0 = nth j fv 0) /\
  map (fun i => nth i c 0) free = coord_of (map (fun i => nth i shape 0) free) k.

Lemma ssw_fix_spec : forall fi fv c0, NoDup fi -> length fv = length fi -> Forall (fun i => i < length c0) fi ->
  forall m, m <= length fi -> exists c,
  foldM (fun c d => i <- rd fi d ;; v <- rd fv d ;; wr c i v) (seq 0 m) c0 = Ret c /\
  length c = length c0 /\ (forall j, j < m -> nth (nth j fi 0) c 0 = nth j fv 0) /\
  (forall i, ~ In i fi -> nth i c 0 = nth i c0 0).
Proof.
  intros fi fv c0 HN HL HB. induction m as [|m IH]; intros Hm.
  { exists c0. cbn. repeat split; auto. intros; lia. }
  destruct IH as [c [E [L [H1 H2]]]]; [lia|]. rewrite foldM_seq_S, E. cbn [bind Nat.add].
  assert (B : nth m fi 0 < length c0).
  { rewrite Forall_forall in HB. apply HB. apply nth_In. lia. }
  rewrite (rd_nth _ fi m 0) by lia. rewrite (rd_nth _ fv m 0) by lia. cbn [bind]. rewrite wr_Ret by lia.
  eexists. split; eauto. split; [rewrite length_upd; auto|]. split.
  - intros j Hj. destruct (Nat.eq_dec j m) as [->|Hne].
    + apply nth_upd_eq. lia.
    + rewrite nth_upd_neq; [apply H1; lia|]. intros Heq. apply Hne.
      apply (proj1 (NoDup_nth fi 0) HN); auto; lia.
  - intros i Hi. rewrite nth_upd_neq; auto. intros <-. apply Hi. apply nth_In. lia.
Qed.

Lemma sorted_NoDup : forall l, StronglySorted lt l -> NoDup l.
Proof.
  intros l H. induction H; constructor; auto. intros Hin. rewrite Forall_forall in H0. apply H0 in Hin. lia.
Qed.

Lemma ssw_init_spec : forall shape fi fv, positive shape -> StronglySorted lt fi -> length fv = length fi ->
  Forall (fun i => i < length shape) fi ->
  exists c, ssw_init (length shape) fi fv = Ret c /\ ssw_state shape fi fv 0 c.
Proof.
  intros shape fi fv HP HS HL HB. unfold ssw_init, ssw_fix.
  destruct (ssw_fix_spec fi fv (repeat 0 (length shape))) with (m := length fi) as [c [E [L [H1 H2]]]]; auto.
  { apply sorted_NoDup; auto. }
  { rewrite repeat_length. auto. }
  exists c. split; auto. rewrite repeat_length in L. split; auto. split; auto.
  fold (frees fi 0 (length shape)). rewrite coord_of_0.
  - rewrite map_length. transitivity (map (fun _ : nat => 0) (frees fi 0 (length shape))).
    + apply map_ext_in. intros i Hi. rewrite H2; [apply nth_repeat|].
      apply filter_In in Hi. destruct Hi as [_ Hi]. rewrite negb_true_iff in Hi.
      intros Hin. apply isfix_In in Hin. unfold isfix in *. congruence.
    + unfold frees, isfix. clear. induction (filter (fun i => negb (existsb (Nat.eqb i) fi)) (seq 0 (length shape))); cbn; congruence.
  - apply positive_map; auto. intros i Hi. apply frees_ge in Hi. lia.
Qed.

Lemma ssw_next_spec : forall shape fi fv k c, positive shape -> StronglySorted lt fi -> length fv = length fi ->
  Forall (fun i => i < length shape) fi -> ssw_state shape fi fv k c ->
  S k < size_of (map (fun i => nth i shape 0) (filter (fun i => negb (existsb (Nat.eqb i) fi)) (seq 0 (length shape)))) ->
  exists c', ssw_next shape fi c (length shape) = Ret c' /\ ssw_state shape fi fv (S k) c'.
Proof.
  intros shape fi fv k c HP HS HL HB [S1 [S2 S3]] HK. unfold ssw_next.
  destruct (ssw_loop_spec shape fi (length shape) HP eq_refl HS (length shape) 0 0 c k) as [c' [R1 [R2 [R3 R4]]]]; auto.
  { apply cut_0. }
  exists c'. split; auto. split; auto. split; auto.
  intros j Hj. rewrite R4; auto. right. apply isfix_In. apply nth_In. auto.
Qed.

Lemma ssw_run_spec : forall shape fi fv k, positive shape -> StronglySorted lt fi -> length fv = length fi ->
  Forall (fun i => i < length shape) fi ->
  k < size_of (map (fun i => nth i shape 0) (filter (fun i => negb (existsb (Nat.eqb i) fi)) (seq 0 (length shape)))) ->
  exists c, ssw_run shape fi fv (length shape) k = Ret c /\ ssw_state shape fi fv k c.
Proof.
  intros shape fi fv k HP HS HL HB. unfold ssw_run.
  destruct (ssw_init_spec shape fi fv HP HS HL HB) as [c0 [E0 S0]]. rewrite E0. cbn [bind].
  induction k; intros HK.
  - exists c0. auto.
  - destruct IHk as [c [E S1]]; [lia|]. rewrite foldM_seq_S, E. cbn [bind]. apply ssw_next_spec; auto.
Qed.

Lemma ssw_reset_spec : forall shape fi fv c, positive shape -> StronglySorted lt fi -> length fv = length fi ->
  Forall (fun i => i < length shape) fi -> length c = length shape ->
  ssw_reset (length shape) fi fv c = ssw_init (length shape) fi fv.
Proof.
  intros shape fi fv c HP HS HL HB Lc. unfold ssw_reset, ssw_init.
  assert (E : foldM (fun c i => wr c i 0) (seq 0 (length shape)) c = Ret (repeat 0 (length shape))).
  { rewrite <- Lc. clear.
    assert (G : forall m, m <= length c -> foldM (fun c i => wr c i 0) (seq 0 m) c = Ret (repeat 0 m ++ skipn m c)).
    { induction m; intros Hm; auto. rewrite foldM_seq_S, IHm by lia. cbn [bind Nat.add].
      destruct (skipn m c) as [|x r] eqn:Es.
      { assert (length (skipn m c) = 0) by (rewrite Es; auto). rewrite skipn_length in H. lia. }
      rewrite wr_app_mid by (rewrite repeat_length; auto).
      destruct (firstn_S_skipn _ _ _ _ _ Es) as [_ ->].
      replace (repeat 0 (S m)) with (repeat 0 m ++ [0]); [rewrite <- app_assoc; auto|].
      clear. induction m; cbn in *; congruence. }
    rewrite G by auto. rewrite skipn_all, app_nil_r. auto. }
  rewrite E. auto.
Qed.

Lemma ssw_subSize_spec : forall shape fi, StronglySorted lt fi ->
  ssw_subSize shape fi (length shape) =
  Ret (size_of (map (fun i => nth i shape 0) (filter (fun i => negb (existsb (Nat.eqb i) fi)) (seq 0 (length shape))))).
Proof.
  intros shape fi HS. unfold ssw_subSize.
  assert (G : forall m d r counter, d + m = length shape -> cut fi counter d -> exists counter',
    foldM (fun (st : nat * nat) d =>
      let '(result, counter) := st in
      let '(fixedVal, counter') := ssw_scan1 fi counter d in
      if fixedVal then Ret (result, counter')
      else s <- rd shape d ;; Ret (result * s, counter')) (seq d m) (r, counter)
    = Ret (r * size_of (map (fun i => nth i shape 0) (frees fi d m)), counter')).
  { induction m as [|m IH]; intros d r counter HD HC.
    - exists counter. cbn. f_equal. f_equal. lia.
    - cbn [seq foldM]. destruct (ssw_scan1_spec _ _ _ HS HC) as [c' [E C']]. rewrite E.
      unfold frees. cbn [seq filter]. fold (frees fi (S d) m). destruct (isfix fi d) eqn:EI.
      + cbn [bind negb]. apply IH; auto; lia.
      + rewrite (rd_nth _ shape d 0) by lia. cbn [bind negb]. destruct (IH (S d) (r * nth d shape 0) c') as [c2 E2]; auto; try lia.
        exists c2. rewrite E2. f_equal. f_equal. cbn [map size_of fold_right].
        fold (size_of (map (fun i => nth i shape 0) (frees fi (S d) m))). lia. }
  destruct (G (length shape) 0 1 0) as [c' E]; auto using cut_0.
  rewrite E. cbn [bind]. f_equal. unfold frees, isfix. lia.
Qed.

(** * Double and triple walkers *)

Definition match_ok (viAB viA : list nat) (m : matching) : Prop :=
  length (fst m) = length viAB /\ length (snd m) = length viAB /\
  forall d, d < length viAB ->
    (nth d (fst m) false = true /\ exists i, nth_error (snd m) d = Some (Some i) /\ i < length viA /\ nth i viA 0 = nth d viAB 0) \/
    (nth d (fst m) false = false /\ ~ In (nth d viAB 0) viA).

Lemma sorted_lt_nth : forall l i j, StronglySorted lt l -> i < j -> j < length l -> nth i l 0 < nth j l 0.
Proof.
  intros l i j H. revert i j. induction H as [|x l HS IH HF]; intros i j Hij Hj; [cbn in Hj; lia|].
  destruct j; [lia|]. cbn in Hj. destruct i; cbn [nth].
  - rewrite Forall_forall in HF. apply HF. apply nth_In. lia.
  - apply IH; lia.
Qed.
Lemma sorted_nth_inj : forall l i j, StronglySorted lt l -> i < length l -> j < length l -> nth i l 0 = nth j l 0 -> i = j.
Proof.
  intros l i j H Hi Hj E. destruct (Nat.lt_trichotomy i j) as [L|[L|L]]; auto.
  - pose proof (sorted_lt_nth l i j H L Hj). lia.
  - pose proof (sorted_lt_nth l j i H L Hi). lia.
Qed.

(** matching built for the dimensions below d *)
Definition match_upto (viAB viA : list nat) (d0 : nat) (m : matching) : Prop :=
  length (fst m) = length viAB /\ length (snd m) = length viAB /\
  (forall d, d0 <= d -> nth d (fst m) false = false) /\
  forall d, d < d0 ->
    (nth d (fst m) false = true /\ exists i, nth_error (snd m) d = Some (Some i) /\ i < length viA /\ nth i viA 0 = nth d viAB 0) \/
    (nth d (fst m) false = false /\ ~ In (nth d viAB 0) viA).

Lemma match_upto_0 : forall viAB viA, match_upto viAB viA 0 (no_match (length viAB)).
Proof.
  intros. unfold no_match. split; [|split; [|split]]; cbn [fst snd]; try apply repeat_length.
  - intros. apply nth_repeat.
  - intros; lia.
Qed.

Lemma match_upto_skip : forall viAB viA d m, match_upto viAB viA d m -> ~ In (nth d viAB 0) viA ->
  match_upto viAB viA (S d) m.
Proof.
  intros viAB viA d m [H1 [H2 [H3 H4]]] HN. split; auto. split; auto. split.
  - intros. apply H3. lia.
  - intros d' Hd'. destruct (Nat.eq_dec d' d) as [->|Hne].
    + right. split; auto.
    + apply H4. lia.
Qed.

Lemma match_upto_put : forall viAB viA d i mt mi, match_upto viAB viA d (mt, mi) -> d < length viAB ->
  i < length viA -> nth i viA 0 = nth d viAB 0 ->
  match_upto viAB viA (S d) (upd mt d true, upd mi d (Some i)).
Proof.
  intros viAB viA d i mt mi [H1 [H2 [H3 H4]]] Hd Hi E. cbn [fst snd] in *.
  split; [|split; [|split]]; cbn [fst snd]; try (rewrite length_upd; auto).
  - intros d' Hd'. rewrite nth_upd_neq by lia. apply H3. lia.
  - intros d' Hd'. destruct (Nat.eq_dec d' d) as [->|Hne].
    + left. split; [apply nth_upd_eq; lia|]. exists i. split; auto. apply nth_error_upd_eq. lia.
    + rewrite nth_upd_neq by lia. rewrite nth_error_upd_neq by lia. apply H4. lia.
Qed.

Lemma match_upto_all : forall viAB viA m, match_upto viAB viA (length viAB) m -> match_ok viAB viA m.
Proof. intros viAB viA m [H1 [H2 [_ H4]]]. split; auto. Qed.

Lemma foldM_noop : forall A S (f : S -> A -> outcome S) l s, (forall a, In a l -> f s a = Ret s) -> foldM f l s = Ret s.
Proof.
  intros A S f l s H. induction l; cbn; auto. rewrite H by (left; auto). cbn. apply IHl. intros. apply H. right; auto.
Qed.

Lemma dsw_match_spec : forall viAB viA, StronglySorted lt viAB -> StronglySorted lt viA ->
  exists m, dsw_match (length viAB) viAB viA = Ret m /\ match_ok viAB viA m.
Proof.
  intros viAB viA HAB HA. unfold dsw_match.
  set (inner := fun d (st : matching * nat) i =>
          let '((mt, mi), counterA) := st in
          x <- rd viAB d ;;
          y <- rd viA i ;;
          if Nat.eqb x y then
            mt' <- wr mt d true ;;
            mi' <- wr mi d (Some i) ;;
            Ret ((mt', mi'), S counterA)
          else Ret st).
  assert (G : forall n, n <= length viAB -> exists m counter,
    foldM (fun (st : matching * nat) d => foldM (inner d) (seq (snd st) (length viA - snd st)) st) (seq 0 n) (no_match (length viAB), 0)
      = Ret (m, counter) /\ match_upto viAB viA n m /\ counter <= length viA /\
      (forall j d, j < counter -> n <= d -> d < length viAB -> nth j viA 0 < nth d viAB 0)).
  { induction n as [|n IH]; intros Hn.
    - exists (no_match (length viAB)), 0. split; auto. split; [apply match_upto_0|]. split; [lia|]. intros; lia.
    - destruct IH as [m [counter [E [M [HC HB]]]]]; [lia|]. rewrite foldM_seq_S, E. cbn [bind Nat.add snd].
      destruct m as [mt mi].
      assert (NM : forall a st, a < length viA -> nth a viA 0 <> nth n viAB 0 -> inner n st a = Ret st).
      { intros a [[? ?] ?] Ha Hne. unfold inner. rewrite (rd_nth _ viAB n 0) by lia. rewrite (rd_nth _ viA a 0) by lia.
        cbn [bind]. destruct (Nat.eqb_spec (nth n viAB 0) (nth a viA 0)); auto. congruence. }
      destruct (in_dec Nat.eq_dec (nth n viAB 0) viA) as [Hin|Hnin].
      + apply (In_nth _ _ 0) in Hin. destruct Hin as [i [Hi Ei]].
        assert (Hci : counter <= i).
        { destruct (Nat.le_gt_cases counter i); auto. specialize (HB i n). lia. }
        replace (length viA - counter) with ((i - counter) + S (length viA - S i)) by lia.
        rewrite seq_app, foldM_app. replace (counter + (i - counter)) with i by lia.
        rewrite foldM_noop.
        2:{ intros a Ha. apply in_seq in Ha. apply NM; [lia|]. pose proof (sorted_lt_nth viA a i HA). lia. }
        cbn [bind seq foldM].
        destruct M as [M1 [M2 M3]]. cbn [fst snd] in M1, M2.
        assert (EI : inner n (((mt, mi) : matching), counter) i = Ret (((upd mt n true, upd mi n (Some i)) : matching), S counter)).
        { unfold inner. rewrite (rd_nth _ viAB n 0) by lia. rewrite (rd_nth _ viA i 0) by lia.
          cbn [bind]. rewrite Ei, Nat.eqb_refl. rewrite !wr_Ret by lia. reflexivity. }
        rewrite EI. cbn [bind].
        rewrite foldM_noop.
        2:{ intros a Ha. apply in_seq in Ha. apply NM; [lia|]. pose proof (sorted_lt_nth viA i a HA). lia. }
        exists (upd mt n true, upd mi n (Some i)), (S counter). split; auto. split; [|split; [lia|]].
        * apply match_upto_put; auto. split; auto.
        * intros j d Hj Hd1 Hd2. pose proof (sorted_lt_nth viAB n d HAB ltac:(lia) Hd2).
          destruct (Nat.eq_dec j i) as [->|]; [lia|]. pose proof (sorted_lt_nth viA j i HA). lia.
      + rewrite foldM_noop.
        2:{ intros a Ha. apply in_seq in Ha. apply NM; [lia|]. intros Heq. apply Hnin. rewrite <- Heq. apply nth_In. lia. }
        exists (mt, mi), counter. split; auto. split; [apply match_upto_skip; auto|]. split; auto.
        intros; apply HB; auto; lia. }
  destruct (G (length viAB)) as [m [counter [E [M _]]]]; auto.
  exists m. split; [|apply match_upto_all; auto].
  transitivity (bind (Ret (m, counter)) (fun p : matching * nat => let '(m, _) := p in Ret m)); [rewrite <- E; reflexivity|reflexivity].
Qed.

Lemma tsw_match_spec : forall viAB viA, StronglySorted lt viAB -> StronglySorted lt viA -> incl viA viAB ->
  exists m, tsw_match (length viAB) viAB viA = Ret m /\ match_ok viAB viA m.
Proof.
  intros viAB viA HAB HA HI. unfold tsw_match.
  set (body := fun (st : matching * nat) d =>
      let '((mt, mi), counterA) := st in
      if Nat.ltb counterA (length viA) then
        x <- rd viAB d ;;
        y <- rd viA counterA ;;
        if Nat.eqb x y then
          mt' <- wr mt d true ;;
          mi' <- wr mi d (Some counterA) ;;
          Ret ((mt', mi'), S counterA)
        else Ret st
      else Ret st).
  assert (G : forall n, n <= length viAB -> exists m counter,
    foldM body (seq 0 n) (no_match (length viAB), 0) = Ret (m, counter) /\ match_upto viAB viA n m /\
      (forall j d, j < counter -> n <= d -> d < length viAB -> nth j viA 0 < nth d viAB 0) /\
      (forall j, counter <= j -> j < length viA -> exists d, n <= d /\ d < length viAB /\ nth d viAB 0 = nth j viA 0)).
  { induction n as [|n IH]; intros Hn.
    - exists (no_match (length viAB)), 0. split; auto. split; [apply match_upto_0|]. split; [intros; lia|].
      intros j _ Hj. assert (In (nth j viA 0) viAB) as Hin by (apply HI; apply nth_In; auto).
      apply (In_nth _ _ 0) in Hin. destruct Hin as [d [? ?]]. exists d. split; [lia|auto].
    - destruct IH as [m [counter [E [M [HB HT]]]]]; [lia|]. rewrite foldM_seq_S, E. cbn [bind Nat.add].
      destruct m as [mt mi]. unfold body at 1.
      assert (SK : (counter < length viA -> nth n viAB 0 <> nth counter viA 0) ->
         match_upto viAB viA (S n) (mt, mi) /\
         (forall j d, j < counter -> S n <= d -> d < length viAB -> nth j viA 0 < nth d viAB 0) /\
         (forall j, counter <= j -> j < length viA -> exists d, S n <= d /\ d < length viAB /\ nth d viAB 0 = nth j viA 0)).
      { intros Hne. assert (HT' : forall j, counter <= j -> j < length viA -> exists d, S n <= d /\ d < length viAB /\ nth d viAB 0 = nth j viA 0).
        { intros j Hj1 Hj2. destruct (HT j Hj1 Hj2) as [d [D1 [D2 D3]]]. exists d. split; auto.
          destruct (Nat.eq_dec d n) as [->|]; [|lia]. exfalso.
          destruct (Nat.eq_dec j counter) as [->|Hne2]; [apply Hne; auto|].
          destruct (HT counter) as [d' [D1' [D2' D3']]]; [lia|lia|].
          pose proof (sorted_lt_nth viA counter j HA ltac:(lia) Hj2).
          destruct (Nat.eq_dec d' n) as [->|]; [lia|]. pose proof (sorted_lt_nth viAB n d' HAB ltac:(lia) D2'). lia. }
        split; [|split]; auto.
        - apply match_upto_skip; auto. intros Hin. apply (In_nth _ _ 0) in Hin. destruct Hin as [j [Hj Ej]].
          destruct (Nat.lt_ge_cases j counter) as [Hlt|Hge].
          + specialize (HB j n Hlt). lia.
          + destruct (HT' j Hge Hj) as [d [D1 [D2 D3]]]. pose proof (sorted_lt_nth viAB n d HAB ltac:(lia) D2). lia.
        - intros; apply HB; auto; lia. }
      destruct (Nat.ltb_spec counter (length viA)) as [HC|HC].
      + rewrite (rd_nth _ viAB n 0) by lia. rewrite (rd_nth _ viA counter 0) by lia. cbn [bind].
        destruct (Nat.eqb_spec (nth n viAB 0) (nth counter viA 0)) as [Heq|Hne].
        * pose proof M as [M1 [M2 M3]]. cbn [fst snd] in M1, M2. rewrite !wr_Ret by lia. cbn [bind].
          eexists _, _. split; [reflexivity|]. split; [apply match_upto_put; auto|]. split.
          -- intros j d Hj Hd1 Hd2. pose proof (sorted_lt_nth viAB n d HAB ltac:(lia) Hd2).
             destruct (Nat.eq_dec j counter) as [->|]; [lia|]. pose proof (HB j n). lia.
          -- intros j Hj1 Hj2. destruct (HT j ltac:(lia) Hj2) as [d [D1 [D2 D3]]]. exists d. split; auto.
             destruct (Nat.eq_dec d n) as [->|]; [|lia]. pose proof (sorted_lt_nth viA counter j HA). lia.
        * eexists _, _. split; [reflexivity|]. apply SK. auto.
      + eexists _, _. split; [reflexivity|]. apply SK. intros; lia. }
  destruct (G (length viAB)) as [m [counter [E [M _]]]]; auto.
  exists m. split; [|apply match_upto_all; auto].
  transitivity (bind (Ret (m, counter)) (fun p : matching * nat => let '(m, _) := p in Ret m)); [rewrite <- E; reflexivity|reflexivity].
Qed.

(** The sub-coordinate is the projection of the joint coordinate. *)
Definition projection (viAB viA cAB cA : list nat) : Prop :=
  length cA = length viA /\
  forall i d, i < length viA -> d < length viAB -> nth i viA 0 = nth d viAB 0 -> nth i cA 0 = nth d cAB 0.

Lemma sub_set_spec : forall viAB viA m cAB cA d v g,
  StronglySorted lt viAB -> StronglySorted lt viA -> match_ok viAB viA m -> projection viAB viA cAB cA -> length cAB = length viAB ->
  d < length viAB -> g (nth d cAB 0) = v ->
  exists cA', sub_set m d g cA = Ret cA' /\ projection viAB viA (upd cAB d v) cA'.
Proof.
  intros viAB viA [mt mi] cAB cA d v g HAB HA [M1 [M2 M3]] [P1 P2] L Hd Hg. cbn [fst snd] in *.
  unfold sub_set. cbn [fst snd]. rewrite (rd_nth _ mt d false) by lia. cbn [bind].
  destruct (M3 d Hd) as [[E [i [Ei [Hi Hv]]]]|[E Hn]]; rewrite E.
  - unfold rd at 1. rewrite Ei. cbn [bind]. rewrite (rd_nth _ cA i 0) by lia. cbn [bind].
    rewrite wr_Ret by lia. eexists. split; eauto. split; [rewrite length_upd; auto|].
    intros j e Hj He Heq. destruct (Nat.eq_dec j i) as [->|Hne].
    + assert (e = d) by (apply (sorted_nth_inj viAB); auto; lia). subst e.
      rewrite !nth_upd_eq by lia. rewrite <- Hg. f_equal. apply P2; auto.
    + rewrite nth_upd_neq by auto. rewrite nth_upd_neq; [auto|]. intros ->. apply Hne.
      apply (sorted_nth_inj viA); auto. lia.
  - exists cA. split; auto. split; auto. intros j e Hj He Heq. rewrite nth_upd_neq; [auto|].
    intros ->. apply Hn. rewrite <- Heq. apply nth_In. auto.
Qed.

Lemma dsw_loop_spec : forall viAB viA m sh spre pre cs cA,
  StronglySorted lt viAB -> StronglySorted lt viA -> match_ok viAB viA m -> length pre = length spre -> length cs = length sh ->
  length viAB = length spre + length sh -> projection viAB viA (pre ++ cs) cA ->
  exists cA', dsw_loop (spre ++ sh) m (seq (length spre) (length sh)) (pre ++ cs, cA) = Ret (pre ++ incr sh cs, cA') /\
    projection viAB viA (pre ++ incr sh cs) cA'.
Proof.
  intros viAB viA m. induction sh as [|s sh IH]; intros spre pre cs cA HAB HA HM L1 L2 L3 HP.
  - exists cA. destruct cs; [|discriminate]. split; auto.
  - destruct cs as [|x cs]; [discriminate|]. cbn [length seq dsw_loop incr]. rewrite !rd_app_mid by auto. cbn [bind].
    cbn [length] in *.
    assert (HX : nth (length spre) (pre ++ x :: cs) 0 = x) by (rewrite <- L1, nth_middle; auto).
    destruct (Nat.eqb (S x) s); cbn [negb]; rewrite wr_app_mid by auto; cbn [bind].
    + destruct (sub_set_spec viAB viA m (pre ++ x :: cs) cA (length spre) 0 (fun _ => 0)) as [cA1 [E1 P1]]; auto; try lia.
      { rewrite app_length. cbn. lia. }
      rewrite E1. cbn [bind]. rewrite upd_app_mid in P1 by auto.
      destruct (IH (spre ++ [s]) (pre ++ [0]) cs cA1) as [cA2 [E2 P2]]; auto; rewrite ?app_length; cbn [length]; try lia.
      { rewrite <- app_assoc. auto. }
      repeat rewrite <- (app_assoc pre) in E2. rewrite <- (app_assoc pre) in P2. rewrite <- (app_assoc spre), app_length in E2. cbn [length app] in *.
      replace (S (length spre)) with (length spre + 1) by lia. exists cA2. split; auto.
    + destruct (sub_set_spec viAB viA m (pre ++ x :: cs) cA (length spre) (S x) S) as [cA1 [E1 P1]]; auto; try lia.
      { rewrite app_length. cbn. lia. }
      rewrite E1. cbn [bind]. rewrite upd_app_mid in P1 by auto. exists cA1. split; auto.
Qed.

Lemma dsw_run_spec : forall shape viAB viA k, positive shape -> length viAB = length shape ->
  StronglySorted lt viAB -> StronglySorted lt viA ->
  exists cA, dsw_run shape viAB viA (length shape) k = Ret (coord_of shape k, cA) /\
    projection viAB viA (coord_of shape k) cA.
Proof.
  intros shape viAB viA k HP HL HAB HA. unfold dsw_run.
  destruct (dsw_match_spec viAB viA HAB HA) as [m [EM M]]. rewrite <- HL, EM. cbn [bind].
  unfold dsw_init. induction k as [|k IH].
  - rewrite HL, <- coord_of_0 by auto. exists (repeat 0 (length viA)). split; auto.
    split; [apply repeat_length|]. intros. rewrite coord_of_0 by auto. rewrite !nth_repeat. auto.
  - destruct IH as [cA [E P]]. rewrite foldM_seq_S, E. cbn [bind]. unfold dsw_next. rewrite HL.
    destruct (dsw_loop_spec viAB viA m shape [] [] (coord_of shape k) cA) as [cA' [E' P']]; auto.
    { apply coord_of_length. }
    cbn [app length] in E', P'. rewrite incr_coord in E', P' by auto. exists cA'. split; auto.
Qed.

Lemma tsw_loop_spec : forall viAB viA viB mA mB sh spre pre cs cA cB,
  StronglySorted lt viAB -> StronglySorted lt viA -> StronglySorted lt viB -> match_ok viAB viA mA -> match_ok viAB viB mB ->
  length pre = length spre -> length cs = length sh ->
  length viAB = length spre + length sh -> projection viAB viA (pre ++ cs) cA -> projection viAB viB (pre ++ cs) cB ->
  exists cA' cB', tsw_loop (spre ++ sh) mA mB (seq (length spre) (length sh)) (pre ++ cs, cA, cB) = Ret (pre ++ incr sh cs, cA', cB') /\
    projection viAB viA (pre ++ incr sh cs) cA' /\ projection viAB viB (pre ++ incr sh cs) cB'.
Proof.
  intros viAB viA viB mA mB. induction sh as [|s sh IH]; intros spre pre cs cA cB HAB HA HB HMA HMB L1 L2 L3 HPA HPB.
  - exists cA, cB. destruct cs; [|discriminate]. split; auto.
  - destruct cs as [|x cs]; [discriminate|]. cbn [length seq tsw_loop incr]. rewrite !rd_app_mid by auto. cbn [bind].
    cbn [length] in *.
    assert (HX : nth (length spre) (pre ++ x :: cs) 0 = x) by (rewrite <- L1, nth_middle; auto).
    assert (HLc : length (pre ++ x :: cs) = length viAB) by (rewrite app_length; cbn; lia).
    destruct (Nat.eqb (S x) s); cbn [negb]; rewrite wr_app_mid by auto; cbn [bind].
    + destruct (sub_set_spec viAB viA mA (pre ++ x :: cs) cA (length spre) 0 (fun _ => 0)) as [cA1 [E1 P1]]; auto; try lia.
      destruct (sub_set_spec viAB viB mB (pre ++ x :: cs) cB (length spre) 0 (fun _ => 0)) as [cB1 [F1 Q1]]; auto; try lia.
      rewrite E1, bind_Ret, F1, bind_Ret. rewrite upd_app_mid in P1, Q1 by auto.
      destruct (IH (spre ++ [s]) (pre ++ [0]) cs cA1 cB1) as [cA2 [cB2 [E2 [P2 Q2]]]]; auto; rewrite ?app_length; cbn [length]; try lia;
        try (rewrite <- app_assoc; auto).
      repeat rewrite <- (app_assoc pre) in E2. rewrite <- (app_assoc pre) in P2, Q2. rewrite <- (app_assoc spre), app_length in E2. cbn [length app] in *.
      replace (S (length spre)) with (length spre + 1) by lia. exists cA2, cB2. split; auto.
    + destruct (sub_set_spec viAB viA mA (pre ++ x :: cs) cA (length spre) (S x) S) as [cA1 [E1 P1]]; auto; try lia.
      destruct (sub_set_spec viAB viB mB (pre ++ x :: cs) cB (length spre) (S x) S) as [cB1 [F1 Q1]]; auto; try lia.
      rewrite E1, bind_Ret, F1, bind_Ret. rewrite upd_app_mid in P1, Q1 by auto. exists cA1, cB1. split; auto.
Qed.

Lemma tsw_run_spec : forall shape viAB viA viB k, positive shape -> length viAB = length shape ->
  StronglySorted lt viAB -> StronglySorted lt viA -> StronglySorted lt viB -> incl viA viAB -> incl viB viAB ->
  exists cA cB, tsw_run shape viAB viA viB (length shape) k = Ret (coord_of shape k, cA, cB) /\
    projection viAB viA (coord_of shape k) cA /\ projection viAB viB (coord_of shape k) cB.
Proof.
  intros shape viAB viA viB k HP HL HAB HA HB IA IB. unfold tsw_run.
  destruct (tsw_match_spec viAB viA HAB HA IA) as [mA [EA MA]].
  destruct (tsw_match_spec viAB viB HAB HB IB) as [mB [EB MB]].
  rewrite <- HL, EA, bind_Ret, EB, bind_Ret. induction k as [|k IH].
  - rewrite HL, <- coord_of_0 by auto. exists (repeat 0 (length viA)), (repeat 0 (length viB)). split; auto.
    split; (split; [apply repeat_length|]; intros; rewrite coord_of_0 by auto; rewrite !nth_repeat; auto).
  - destruct IH as [cA [cB [E [P Q]]]]. rewrite foldM_seq_S, E. cbn [bind]. unfold tsw_next. rewrite HL.
    destruct (tsw_loop_spec viAB viA viB mA mB shape [] [] (coord_of shape k) cA cB) as [cA' [cB' [E' [P' Q']]]]; auto.
    { apply coord_of_length. }
    cbn [app length] in E', P', Q'. rewrite incr_coord in E', P', Q' by auto. exists cA', cB'. split; auto.
Qed.

Lemma isEqualValueVector_spec : forall v, isEqualValueVector v = true <-> (forall x y, In x v -> In y v -> x = y).
Proof.
  intros v. unfold isEqualValueVector. rewrite forallb_forall. split.
  - intros H x y Hx Hy.
    assert (G : forall z, In z v -> z = nth 0 v 0).
    { intros z Hz. apply (In_nth _ _ 0) in Hz. destruct Hz as [i [Hi <-]].
      assert (In i (seq 0 (length v))) by (apply in_seq; lia). apply H in H0. apply Nat.eqb_eq in H0. auto. }
    rewrite (G x), (G y); auto.
  - intros H i Hi. apply in_seq in Hi. apply Nat.eqb_eq. apply H; apply nth_In; lia.
Qed.
