(** Accumulation over all and over some variables of a factor. *)
From Coq Require Import Sorted.
From Verif Require Import Base ShapeSpec ShapeProofs IndexingModel IndexingProofs UtilModel FunctionBaseProofs MarrayProofs GmProofs
  FactorOpsModel FactorOpsSpec FactorOpsProofs FactorOpsTables.

Lemma filter_positions : forall p (l : list nat),
  map (fun i => nth i l 0) (filter (fun i => p (nth i l 0)) (seq 0 (length l))) = filter p l.
Proof.
  intros p l. induction l as [|a l IH]; auto. cbn [length seq]. rewrite <- seq_shift.
  assert (E : forall q m, filter q (map S m) = map S (filter (fun i => q (S i)) m)).
  { intros q m. induction m as [|i m IHm]; auto. cbn [map filter]. rewrite IHm. destruct (q (S i)); auto. }
  change (map (fun i => nth i (a :: l) 0) (if p a then 0 :: filter (fun i => p (nth i (a :: l) 0)) (map S (seq 0 (length l)))
     else filter (fun i => p (nth i (a :: l) 0)) (map S (seq 0 (length l)))) = if p a then a :: filter p l else filter p l).
  rewrite E. change (fun i => p (nth (S i) (a :: l) 0)) with (fun i => p (nth i l 0)).
  destruct (p a); cbn [map]; rewrite map_map; change (fun x => nth (S x) (a :: l) 0) with (fun x => nth x l 0);
    [change (nth 0 (a :: l) 0) with a; f_equal|]; exact IH.
Qed.
Lemma nth_map_nth : forall (c l : list nat) q, q < length l -> nth q (map (fun i => nth i c 0) l) 0 = nth (nth q l 0) c 0.
Proof.
  intros c l. induction l as [|i l IH]; intros [|q] H; cbn in H; try lia; auto. apply IH. lia.
Qed.
Lemma sorted_seq : forall n a, StronglySorted lt (seq a n).
Proof.
  induction n; intros a; cbn; constructor; auto. apply Forall_forall. intros x Hx. apply in_seq in Hx. lia.
Qed.
Lemma sorted_filter : forall p l, StronglySorted lt l -> StronglySorted lt (filter p l).
Proof.
  intros p l H. induction H; cbn; [constructor|]. destruct (p a); auto. constructor; auto.
  apply Forall_forall. intros x Hx. apply filter_In in Hx. rewrite Forall_forall in H0. apply H0. tauto.
Qed.

Lemma acc_positions_spec : forall va viAcc, acc_positions va viAcc =
  (filter (fun i => existsb (Nat.eqb (nth i va 0)) viAcc) (seq 0 (length va)),
   filter (fun i => negb (existsb (Nat.eqb (nth i va 0)) viAcc)) (seq 0 (length va))).
Proof.
  intros va viAcc. unfold acc_positions.
  assert (G : forall l a b, fold_left (fun (st : list nat * list nat) i =>
      if existsb (Nat.eqb (nth i va 0)) viAcc then (fst st ++ [i], snd st) else (fst st, snd st ++ [i])) l (a, b)
    = (a ++ filter (fun i => existsb (Nat.eqb (nth i va 0)) viAcc) l, b ++ filter (fun i => negb (existsb (Nat.eqb (nth i va 0)) viAcc)) l)).
  { induction l as [|i l IH]; intros a b; cbn [fold_left filter]; [rewrite !app_nil_r; auto|].
    destruct (existsb (Nat.eqb (nth i va 0)) viAcc); cbn [fst snd negb]; rewrite IH, <- app_assoc; auto. }
  rewrite G. auto.
Qed.

Lemma ssw_loop_total : forall dim shape fi ds counter c, length shape = dim -> length c = dim -> (forall d, In d ds -> d < dim) ->
  exists c', ssw_loop dim shape fi ds counter c = Ret c' /\ length c' = dim.
Proof.
  intros dim shape fi ds. induction ds as [|d ds IH]; intros counter c HS HC HD; cbn [ssw_loop]; eauto.
  assert (d < dim) by (apply HD; left; auto). destruct (ssw_scan fi counter d) as [atFixed counter'].
  destruct atFixed. { apply IH; auto. intros; apply HD; right; auto. }
  rewrite (rd_nth _ c d 0), (rd_nth _ shape d 0) by lia. cbn [bind].
  destruct (negb (S (nth d c 0) =? nth d shape 0)); [|destruct (negb (S d =? dim))]; rewrite wr_Ret by lia; cbn [bind].
  - eexists; split; eauto. rewrite length_upd; auto.
  - apply IH; auto. { rewrite length_upd; auto. } intros; apply HD; right; auto.
  - eexists; split; eauto. rewrite length_upd; auto.
Qed.
Lemma ssw_next_total : forall shape fi c, length c = length shape -> exists c', ssw_next shape fi c (length shape) = Ret c' /\ length c' = length shape.
Proof. intros. unfold ssw_next. apply ssw_loop_total; auto. intros d Hd. apply in_seq in Hd. lia. Qed.

Lemma sweep_state : forall S sh (body : S -> list nat -> outcome S) (h : S -> nat -> S) s, positive sh ->
  (forall k s, k < size_of sh -> body s (coord_of sh k) = Ret (h s k)) ->
  single_sweep sh (size_of sh) body s = Ret (fold_left h (seq 0 (size_of sh)) s).
Proof.
  intros S sh body h s HP HB. unfold single_sweep.
  assert (G : forall k, k <= size_of sh -> exists w, foldM (fun (st : S * list nat) (_ : nat) =>
      s <- body (fst st) (snd st) ;; w <- sw_next sh (snd st) (length sh) ;; Ret (s, w)) (seq 0 k) (s, sw_init (length sh))
      = Ret (fold_left h (seq 0 k) s, w) /\ (k < size_of sh -> w = coord_of sh k)).
  { induction k as [|k IH]; intros Hk.
    { exists (sw_init (length sh)). split; auto. intros _. unfold sw_init. rewrite coord_of_0; auto. }
    destruct IH as (w & E & HW); [lia|]. rewrite foldM_seq_S, E. cbn [bind fst snd]. rewrite HW by lia. rewrite HB by lia. cbn [bind].
    destruct (sw_next_total sh (coord_of sh k)) as [c' E']. { apply coord_of_length. } rewrite E'. cbn [bind].
    exists c'. rewrite seq_S, fold_left_app. split; auto. intros HS. rewrite sw_next_spec in E' by (auto; lia). congruence. }
  destruct (G (size_of sh)) as (w & E & _); auto. rewrite E. auto.
Qed.

Section Acc.
Variables (V : Type) (v0 neutral : V) (bop : V -> V -> bool) (op3 : V -> V -> V) (vzero : V).

Lemma feed_values : forall (h : nat -> V) l a,
  fold_left (fun acc k => acc_feed_value V op3 acc (h k)) l a = mkAcc (fold_left (fun r v => op3 v r) (map h l) (acc_value a)) (acc_state a).
Proof. intros h l. induction l as [|k l IH]; intros [v s]; cbn [fold_left map]; auto. rewrite IH. auto. Qed.

Lemma read_override : forall nl f vars F x c rest, represents V nl f vars F -> in_shape (map nl vars) c ->
  f_read f (c ++ rest) = Ret (F (override x vars c)).
Proof.
  intros nl f vars F x c rest (S & _ & P & H) HI. assert (N : NoDup vars) by (apply sorted_NoDup; auto).
  rewrite <- (override_in vars c x) at 1; auto.
  - apply H. apply override_legal; auto.
  - apply in_shape_length in HI. rewrite map_length in HI. auto.
Qed.

Lemma acc_all_spec : forall nl f vars F x, represents V nl f vars F ->
  AccumulateAll V neutral op3 f = Ret (accumulate_values V op3 neutral (values_over V nl vars F x)).
Proof.
  intros nl f vars F x R. pose proof R as (S & Sh & P & H). pose proof (map_positive nl vars P) as HP.
  unfold AccumulateAll, f_dim. rewrite Sh, shape_size_spec. destruct (Nat.eqb_spec (length (map nl vars)) 0) as [E|E]; cbn [negb].
  - rewrite map_length in E. destruct vars; [|discriminate]. pose proof (H x [0]) as E1. cbn [map app] in E1. rewrite E1 by (intros v []). reflexivity.
  - rewrite (sweep_state _ (map nl vars) _ (fun acc k => acc_feed_value V op3 acc (F (override x vars (coord_of (map nl vars) k))))); auto.
    + cbn [bind]. rewrite feed_values. cbn [acc_value]. unfold accumulate_values, values_over, tuples. rewrite map_map. auto.
    + intros k s Hk. pose proof (read_override nl f vars F x (coord_of (map nl vars) k) [] R) as E1. rewrite app_nil_r in E1.
      rewrite E1 by (apply coord_of_in_shape; auto). auto.
Qed.

Lemma feed_states : forall (h : nat -> V) (c : nat -> list nat) l a,
  fold_left (fun acc k => acc_feed V bop op3 acc (h k) (c k)) l a
  = fold_left (fun acc (p : V * list nat) => acc_feed V bop op3 acc (fst p) (snd p)) (map (fun k => (h k, c k)) l) a.
Proof. intros h c l. induction l as [|k l IH]; intros a; cbn [fold_left map fst snd]; auto. Qed.

Lemma acc_all_state_spec : forall nl f vars F x, represents V nl f vars F -> vars <> [] ->
  let r := acc_run V neutral bop op3 (map (fun c => (F (override x vars c), c)) (tuples nl vars)) in
  AccumulateAllState V neutral bop op3 f = Ret (acc_value r, acc_state r).
Proof.
  intros nl f vars F x R HN r. pose proof R as (S & Sh & P & H). pose proof (map_positive nl vars P) as HP.
  unfold AccumulateAllState, f_dim. rewrite Sh, shape_size_spec. destruct (Nat.eqb_spec (length (map nl vars)) 0) as [E|E]; cbn [negb].
  - rewrite map_length in E. destruct vars; [contradiction|discriminate].
  - rewrite (sweep_state _ (map nl vars) _ (fun acc k => acc_feed V bop op3 acc (F (override x vars (coord_of (map nl vars) k))) (coord_of (map nl vars) k))); auto.
    + cbn [bind]. rewrite feed_states. subst r. unfold acc_run, tuples. rewrite map_map. auto.
    + intros k s Hk. pose proof (read_override nl f vars F x (coord_of (map nl vars) k) [] R) as E1. rewrite app_nil_r in E1.
      rewrite E1 by (apply coord_of_in_shape; auto). auto.
Qed.

(** ** Some variables *)
Section Some.
Variables (nl : nat -> nat) (f : fn V) (va viAcc : list nat) (F : (nat -> nat) -> V).
Hypothesis R : represents V nl f va F.
Let isacc v := existsb (Nat.eqb v) viAcc.
Let accv := filter isacc va.
Let keep := filter (fun v => negb (isacc v)) va.
Let accP := filter (fun i => isacc (nth i va 0)) (seq 0 (length va)).
Let keepP := filter (fun i => negb (isacc (nth i va 0))) (seq 0 (length va)).
Let G x := accumulate_values V op3 neutral (values_over V nl accv F x).

Lemma accv_eq : map (fun i => nth i va 0) accP = accv.
Proof. apply filter_positions. Qed.
Lemma keep_eq : map (fun i => nth i va 0) keepP = keep.
Proof. unfold keepP, keep. apply (filter_positions (fun v => negb (isacc v))). Qed.

Let SA : StronglySorted lt va. Proof. apply R. Qed.
Let Sh : f_shape f = map nl va. Proof. apply R. Qed.
Let P : forall v, In v va -> 0 < nl v. Proof. apply R. Qed.
Let ND : NoDup va. Proof. apply sorted_NoDup; auto. Qed.
Let SK : StronglySorted lt keep. Proof. apply sorted_filter; auto. Qed.
Let SV : StronglySorted lt accv. Proof. apply sorted_filter; auto. Qed.
Let NK : NoDup keep. Proof. apply sorted_NoDup; auto. Qed.
Let NV : NoDup accv. Proof. apply sorted_NoDup; auto. Qed.
Let PK : forall v, In v keep -> 0 < nl v. Proof. intros v Hv. apply filter_In in Hv. apply P; tauto. Qed.
Let PV : forall v, In v accv -> 0 < nl v. Proof. intros v Hv. apply filter_In in Hv. apply P; tauto. Qed.
Let SKP : StronglySorted lt keepP. Proof. apply sorted_filter, sorted_seq. Qed.
Let keepP_lt : forall i, In i keepP -> i < length va.
Proof. intros i Hi. apply filter_In in Hi. destruct Hi as [Hi _]. apply in_seq in Hi. lia. Qed.
Let accP_lt : forall i, In i accP -> i < length va.
Proof. intros i Hi. apply filter_In in Hi. destruct Hi as [Hi _]. apply in_seq in Hi. lia. Qed.
Lemma keepP_len : length keepP = length keep. Proof. rewrite <- keep_eq, map_length. auto. Qed.
Lemma accP_len : length accP = length accv. Proof. rewrite <- accv_eq, map_length. auto. Qed.
Lemma in_va : forall v, In v va -> In v keep \/ In v accv.
Proof.
  intros v Hv. destruct (isacc v) eqn:E; [right|left]; apply filter_In; split; auto. rewrite E. auto.
Qed.
Lemma keep_not_acc : forall v, In v keep -> ~ In v accv.
Proof. intros v H1 H2. apply filter_In in H1, H2. destruct H1, H2. rewrite H2 in H0. discriminate. Qed.

Lemma G_ext : forall x y, legal nl keep x -> (forall v, In v keep -> x v = y v) -> G x = G y.
Proof.
  intros x y HX HE. unfold G, values_over. f_equal. apply map_ext_in. intros c Hc.
  unfold tuples in Hc. apply in_map_iff in Hc. destruct Hc as (k & <- & Hk).
  set (c := coord_of (map nl accv) k). assert (HI : in_shape (map nl accv) c) by (apply coord_of_in_shape, map_positive; auto).
  assert (LC : length c = length accv) by (apply in_shape_length in HI; rewrite map_length in HI; auto).
  apply (represents_ext V nl f va F _ _ R).
  - intros v Hv. apply in_va in Hv. destruct Hv as [Hv|Hv].
    + rewrite override_out by (apply keep_not_acc; auto). auto.
    + apply (override_legal nl accv c x NV HI v Hv).
  - intros v Hv. apply in_va in Hv. destruct Hv as [Hv|Hv].
    + rewrite !override_out by (apply keep_not_acc; auto). auto.
    + destruct (In_nth accv v 0 Hv) as (i & Hi & <-). rewrite !override_nth; auto.
Qed.

Lemma free_positions : filter (fun i => negb (existsb (Nat.eqb i) keepP)) (seq 0 (length (map nl va))) = accP.
Proof.
  rewrite map_length. unfold accP. apply filter_ext_in. intros i Hi. 
  destruct (existsb (Nat.eqb i) keepP) eqn:E; cbn [negb].
  - apply existsb_exists in E. destruct E as (j & Hj & Ej). apply Nat.eqb_eq in Ej. subst j. apply filter_In in Hj.
    destruct Hj as [_ Hj]. destruct (isacc (nth i va 0)); auto. 
  - destruct (isacc (nth i va 0)) eqn:E2; auto.
    assert (In i keepP) by (apply filter_In; split; auto; rewrite E2; auto).
    rewrite <- E. symmetry. apply existsb_exists. exists i. split; auto. apply Nat.eqb_refl.
Qed.
Lemma map_nl_nth : forall l, (forall i, In i l -> i < length va) -> map (fun i => nth i (map nl va) 0) l = map nl (map (fun i => nth i va 0) l).
Proof.
  intros l H. rewrite map_map. apply map_ext_in. intros i Hi. rewrite (nth_indep (map nl va) 0 (nl 0)) by (rewrite map_length; auto).
  apply map_nth.
Qed.
Lemma free_shape : map (fun i => nth i (map nl va) 0) accP = map nl accv.
Proof. rewrite map_nl_nth by auto. rewrite accv_eq. auto. Qed.

(** the state of the inner walker is the tuple of the labeling that has the kept labels and the j-th
    tuple of accumulated labels *)
Lemma ssw_state_labels : forall k j c, ssw_state (map nl va) keepP (coord_of (map nl keep) k) j c ->
  c = map (override (lab nl keep k) accv (coord_of (map nl accv) j)) va.
Proof.
  intros k j c (L & H1 & H2). rewrite map_length in L.
  change (map (fun i => nth i c 0) (filter (fun i => negb (existsb (Nat.eqb i) keepP)) (seq 0 (length (map nl va)))) = coord_of (map (fun i => nth i (map nl va) 0) (filter (fun i => negb (existsb (Nat.eqb i) keepP)) (seq 0 (length (map nl va))))) j) in H2.
  rewrite free_positions, free_shape in H2.
  set (y := override (lab nl keep k) accv (coord_of (map nl accv) j)).
  apply nth_ext with (d := 0) (d' := y 0); [rewrite map_length; auto|]. intros i Hi. rewrite map_nth. rewrite L in Hi.
  assert (Hin : In i keepP \/ In i accP).
  { destruct (isacc (nth i va 0)) eqn:E; [right|left]; apply filter_In; (split; [apply in_seq; lia|rewrite E; auto]). }
  destruct Hin as [Hin|Hin].
  - destruct (In_nth keepP i 0 Hin) as (q & Hq & Eq). rewrite <- Eq at 1. rewrite H1 by auto.
    assert (Ek : nth i va 0 = nth q keep 0).
    { rewrite <- keep_eq, nth_map_nth by auto. rewrite Eq. auto. }
    unfold y. rewrite override_out.
    + rewrite Ek. unfold lab. rewrite override_nth; auto.
      * rewrite coord_of_length, map_length. auto.
      * rewrite <- keepP_len. auto.
    + apply keep_not_acc. rewrite Ek. apply nth_In. rewrite <- keepP_len. auto.
  - destruct (In_nth accP i 0 Hin) as (q & Hq & Eq).
    assert (Ek : nth i va 0 = nth q accv 0).
    { rewrite <- accv_eq, nth_map_nth by auto. rewrite Eq. auto. }
    unfold y. rewrite Ek, override_nth; auto; [|rewrite coord_of_length, map_length; auto|rewrite <- accP_len; auto].
    rewrite <- H2, nth_map_nth by auto. rewrite Eq. auto.
Qed.

Lemma read_combined : forall k j, f_read f (map (override (lab nl keep k) accv (coord_of (map nl accv) j)) va)
  = Ret (F (override (lab nl keep k) accv (coord_of (map nl accv) j))).
Proof.
  intros k j. pose proof R as (_ & _ & _ & H).
  pose proof (H (override (lab nl keep k) accv (coord_of (map nl accv) j)) []) as E. rewrite app_nil_r in E. apply E.
  intros v Hv. apply in_va in Hv. destruct Hv as [Hv|Hv].
  - rewrite override_out by (apply keep_not_acc; auto). apply lab_legal; auto.
  - apply override_legal; auto. apply coord_of_in_shape, map_positive; auto.
Qed.

Lemma inner_loop : forall k sub, length sub = length va ->
  exists sub', (sub <- ssw_reset (length va) keepP (coord_of (map nl keep) k) sub ;;
    foldM (fun (st : accumulation V * list nat) (_ : nat) =>
          let '(acc, sub) := st in
          x <- f_read f sub ;;
          sub <- ssw_next (map nl va) keepP sub (length va) ;;
          Ret (acc_feed_value V op3 acc x, sub)) (seq 0 (size_of (map nl accv))) (acc_init V neutral, sub))
   = Ret (mkAcc (G (lab nl keep k)) [], sub') /\ length sub' = length va.
Proof.
  intros k sub L. set (fv := coord_of (map nl keep) k).
  assert (HP : positive (map nl va)) by (apply map_positive; auto).
  assert (LF : length fv = length keepP) by (unfold fv; rewrite coord_of_length, map_length, keepP_len; auto).
  assert (HB : Forall (fun i => i < length (map nl va)) keepP).
  { apply Forall_forall. intros i Hi. rewrite map_length. auto. }
  rewrite <- (map_length nl va). rewrite ssw_reset_spec by (auto; rewrite map_length; auto).
  destruct (ssw_init_spec (map nl va) keepP fv HP SKP LF HB) as (c0 & E0 & S0). rewrite E0. cbn [bind].
  assert (Gn : forall n, n <= size_of (map nl accv) -> exists sub',
    foldM (fun (st : accumulation V * list nat) (_ : nat) =>
          let '(acc, sub) := st in
          x <- f_read f sub ;;
          sub <- ssw_next (map nl va) keepP sub (length (map nl va)) ;;
          Ret (acc_feed_value V op3 acc x, sub)) (seq 0 n) (acc_init V neutral, c0)
    = Ret (fold_left (fun acc j => acc_feed_value V op3 acc (F (override (lab nl keep k) accv (coord_of (map nl accv) j)))) (seq 0 n) (acc_init V neutral), sub')
    /\ length sub' = length (map nl va) /\ (n < size_of (map nl accv) -> ssw_state (map nl va) keepP fv n sub')).
  { induction n as [|n IH]; intros Hn.
    { exists c0. split; auto. split; auto. apply S0. }
    destruct IH as (s1 & E1 & L1 & S1); [lia|]. rewrite foldM_seq_S, E1. cbn [bind].
    assert (ST : ssw_state (map nl va) keepP fv n s1) by (apply S1; lia).
    assert (Er : f_read f s1 = Ret (F (override (lab nl keep k) accv (coord_of (map nl accv) n)))).
    { rewrite (ssw_state_labels k n s1 ST). apply read_combined. }
    rewrite Er. cbn [bind].
    destruct (ssw_next_total (map nl va) keepP s1 L1) as (s2 & E2 & L2). rewrite E2. cbn [bind].
    exists s2. rewrite seq_S, fold_left_app. cbn [fold_left Nat.add]. split; auto. split; auto. intros HS.
    destruct (ssw_next_spec (map nl va) keepP fv n s1 HP SKP LF HB ST) as (c' & Ec & Sc).
    { change (S n < size_of (map (fun i => nth i (map nl va) 0) (filter (fun i => negb (existsb (Nat.eqb i) keepP)) (seq 0 (length (map nl va)))))).
      rewrite free_positions, free_shape. auto. }
    congruence. }
  destruct (Gn (size_of (map nl accv))) as (s' & E' & L' & _); auto. exists s'. rewrite E'. split; auto.
  f_equal. f_equal. rewrite feed_values. cbn [acc_value acc_state acc_init]. f_equal.
  unfold G, accumulate_values, values_over, tuples. rewrite map_map. auto.
Qed.

Lemma loops_spec : keep <> [] ->
  accumulate_loops V neutral op3 f (map nl keep) keepP (mkTable (map nl keep) (repeat v0 (size_of (map nl keep))))
  = Ret (mkTable (map nl keep) (map (fun k => G (lab nl keep k)) (seq 0 (size_of (map nl keep))))).
Proof.
  intros HN. unfold accumulate_loops, f_dim. rewrite Sh. cbn [t_data]. rewrite (map_length nl va).
  assert (HP : positive (map nl va)) by (apply map_positive; auto).
  assert (HPK : positive (map nl keep)) by (apply map_positive; auto).
  assert (HB : Forall (fun i => i < length (map nl va)) keepP).
  { apply Forall_forall. intros i Hi. rewrite map_length. auto. }
  set (d := repeat v0 (size_of (map nl keep))). assert (LD : length d = size_of (map nl keep)) by (apply repeat_length).
  assert (LF : length (sw_init (length (map nl keep))) = length keepP) by (unfold sw_init; rewrite repeat_length, map_length, keepP_len; auto).
  rewrite <- (map_length nl va).
  destruct (ssw_init_spec (map nl va) keepP (sw_init (length (map nl keep))) HP SKP LF HB) as (c0 & E0 & S0). rewrite E0. cbn [bind].
  rewrite ssw_subSize_spec by auto. rewrite free_positions, free_shape. cbn [bind]. rewrite (map_length nl va).
  set (g := fun k => G (lab nl keep k)).
  set (body := fun (st : table V * list nat * list nat) (_ : nat) =>
      let '(b, w, sub) := st in
      sub <- ssw_reset (length va) keepP w sub ;;
      '(acc, sub) <- foldM (fun (st : accumulation V * list nat) (_ : nat) =>
          let '(acc, sub) := st in
          x <- f_read f sub ;;
          sub <- ssw_next (map nl va) keepP sub (length va) ;;
          Ret (acc_feed_value V op3 acc x, sub)) (seq 0 (size_of (map nl accv))) (acc_init V neutral, sub) ;;
      b <- t_write V b w (acc_value acc) ;;
      w <- sw_next (map nl keep) w (length (map nl keep)) ;;
      Ret (b, w, sub)).
  assert (Gn : forall n, n <= length d -> exists w sub, foldM body (seq 0 n) (mkTable (map nl keep) d, sw_init (length (map nl keep)), c0)
     = Ret (mkTable (map nl keep) (partial_data V g n d), w, sub) /\ length sub = length va /\ (n < length d -> w = coord_of (map nl keep) n)).
  { induction n as [|n IH]; intros Hn.
    { exists (sw_init (length (map nl keep))), c0. split; auto. split; [destruct S0 as [S0 _]; rewrite map_length in S0; auto|].
      intros _. unfold sw_init. rewrite coord_of_0; auto. }
    destruct IH as (w & sub & E & Ls & HW); [lia|]. rewrite foldM_seq_S, E. cbn [bind]. rewrite HW by lia. unfold body at 1.
    destruct (inner_loop n sub Ls) as (sub' & EI & LI).
    destruct (ssw_reset (length va) keepP (coord_of (map nl keep) n) sub) as [s1| | |] eqn:ER; cbn [bind] in EI; try discriminate.
    cbn [bind]. rewrite EI. cbn [bind acc_value].
    pose proof (write_partial V (map nl keep) d g n (g n) [] HPK LD ltac:(lia)) as EW. rewrite app_nil_r in EW. unfold g in EW at 2.
    rewrite EW. cbn [bind].
    destruct (sw_next_total (map nl keep) (coord_of (map nl keep) n)) as [c' E']. { apply coord_of_length. } rewrite E'. cbn [bind].
    exists c', sub'. rewrite <- (partial_data_step V g n d) by lia. split; auto. split; auto.
    intros HS. rewrite sw_next_spec in E' by (auto; lia). congruence. }
  destruct (Gn (length d)) as (w & sub & E & _); auto. fold body. rewrite E. cbn [bind]. rewrite partial_data_all, LD. auto.
Qed.

Definition some_value (x : nat -> nat) : V := match accv with [] => F x | _ => G x end.

Lemma match_nonnil : forall (A B : Type) (l : list A) (a b : B), l <> [] -> match l with [] => a | _ => b end = b.
Proof. intros A B [|u l] a b H; [contradiction|auto]. Qed.
Lemma some_value_nil : accv = [] -> some_value = F.
Proof. intros E. unfold some_value. rewrite E. auto. Qed.
Lemma some_value_cons : accv <> [] -> forall x, some_value x = G x.
Proof. intros E x. unfold some_value. apply match_nonnil. auto. Qed.

Lemma acc_some_shapes : mapM (rd (map nl va)) keepP = Ret (map nl keep) /\ mapM (rd va) keepP = Ret keep.
Proof.
  split.
  - rewrite (mapM_Ret _ _ _ (fun i => nth i (map nl va) 0)).
    + f_equal. rewrite map_nl_nth by auto. rewrite keep_eq. auto.
    + intros i Hi. apply rd_nth. rewrite map_length. auto.
  - rewrite (mapM_Ret _ _ _ (fun i => nth i va 0)).
    + rewrite keep_eq. auto.
    + intros i Hi. apply rd_nth. auto.
Qed.
Lemma keep_acc_len : length keep + length accv = length va.
Proof.
  unfold keep, accv. clear. induction va as [|v l IH]; cbn; auto. destruct (isacc v); cbn; lia.
Qed.

Lemma acc_none : keep = [] -> accv = va.
Proof.
  unfold accv, keep. clear. intros EK. induction va as [|v l IH]; auto. cbn in *. destruct (isacc v); cbn in *; try discriminate. f_equal. auto.
Qed.
Lemma keep_all : accv = [] -> keep = va.
Proof.
  intros E. unfold keep. clear - E. unfold accv in E. induction va as [|v l IH]; auto. cbn in *.
  destruct (isacc v); try discriminate. cbn. f_equal. auto.
Qed.

Lemma factor_scalar : forall (r : V) Fx, (forall x, r = Fx x) -> factor_is V nl (t_scalar V r) [] Fx.
Proof.
  intros r Fx E. split; auto. split; [constructor|]. split; auto. split; [intros v []|].
  intros x rest _. cbn [t_fn f_read map app]. unfold t_read, t_scalar. cbn. rewrite (E x). auto.
Qed.

Lemma acc_some_spec : va <> [] ->
  exists b, AccumulateSome V v0 neutral op3 vzero f va viAcc = Ret (b, keep) /\ factor_is V nl b keep some_value.
Proof.
  intros HN. unfold AccumulateSome, f_dim. rewrite Sh, acc_positions_spec. rewrite (map_length nl va).
  change (filter (fun i => existsb (Nat.eqb (nth i va 0)) viAcc) (seq 0 (length va))) with accP.
  change (filter (fun i => negb (existsb (Nat.eqb (nth i va 0)) viAcc)) (seq 0 (length va))) with keepP.
  destruct (Nat.eqb_spec (length va) 0) as [Z|Z]; [apply length_zero_iff_nil in Z; contradiction|]. cbn [negb].
  destruct acc_some_shapes as [-> ->]. cbn [bind]. rewrite accP_len. pose proof keep_acc_len as LEN.
  destruct (Nat.eqb_spec (length accv) (length va)) as [E|E].
  - rewrite (acc_all_spec nl f va F (fun _ => 0) R). cbn [bind t_resize t_assign t_data].
    change (t_write V (t_scalar V v0) [0] (accumulate_values V op3 neutral (values_over V nl va F (fun _ => 0))))
      with (Ret (t_scalar V (accumulate_values V op3 neutral (values_over V nl va F (fun _ => 0))))). cbn [bind].
    assert (EK : keep = []) by (apply length_zero_iff_nil; lia).
    eexists. split; [reflexivity|]. rewrite EK. apply factor_scalar. intros x.
    assert (EV : accv = va).
    { apply acc_none; auto. }
    rewrite some_value_cons by (rewrite EV; auto).
    assert (R1 : AccumulateAll V neutral op3 f = Ret (accumulate_values V op3 neutral (values_over V nl va F x))) by (apply acc_all_spec; auto).
    rewrite (acc_all_spec nl f va F (fun _ => 0) R) in R1. injection R1 as R1. rewrite R1. unfold G. rewrite EV. auto.
  - destruct (Nat.eqb_spec (length accv) 0) as [E0|E0].
    + assert (EA : accv = []) by (apply length_zero_iff_nil; auto). pose proof (keep_all EA) as EK.
      rewrite EK. rewrite resize_fresh by (intros Q; apply map_eq_nil in Q; contradiction). cbn [bind].
      set (d := repeat v0 (size_of (map nl va))). assert (LD : length d = size_of (map nl va)) by (apply repeat_length).
      assert (HP : positive (map nl va)) by (apply map_positive; auto).
      rewrite shape_size_spec, <- LD.
      rewrite (single_loop V (map nl va) d _ (fun k => F (lab nl va k))); auto.
      * cbn [bind]. eexists. split; [reflexivity|]. rewrite LD. rewrite some_value_nil by auto.
        apply (build_factor V nl va F); auto. intros x y HX HE. eapply represents_ext; eauto.
      * intros k Hk. pose proof (represents_lab V nl f va F k [] R) as E1. rewrite app_nil_r in E1. rewrite E1. cbn [bind].
        pose proof (write_partial V (map nl va) d (fun k => F (lab nl va k)) k (F (lab nl va k)) [] HP LD Hk) as E2.
        rewrite app_nil_r in E2. exact E2.
    + assert (NK0 : keep <> []) by (intros EK; rewrite EK in LEN; cbn in LEN; lia).
      rewrite resize_fresh by (intros Q; apply map_eq_nil in Q; contradiction). cbn [bind]. rewrite loops_spec by auto. cbn [bind].
      eexists. split; [reflexivity|]. 
      assert (NA : accv <> []) by (intros Q; rewrite Q in E0; apply E0; auto).
      pose proof (build_factor V nl keep G SK PK G_ext) as [(B1 & B2 & B3 & B4) B5]. split; auto. split; auto. split; auto. split; auto.
      intros x rest HX. rewrite some_value_cons by auto. auto.
Qed.
End Some.

Lemma acc_some_inplace_spec : forall nl t va viAcc F, factor_is V nl t va F -> va <> [] ->
  let keep := filter (fun v => negb (existsb (Nat.eqb v) viAcc)) va in
  exists b, AccumulateSomeInplace V v0 neutral op3 vzero t va viAcc = Ret (b, keep) /\ factor_is V nl b keep (some_value nl va viAcc F).
Proof.
  intros nl t va viAcc F FT HN keep. pose proof FT as [R LD]. pose proof R as (S & Sh & P & H). cbn [t_fn f_shape] in Sh.
  destruct (acc_some_spec nl (t_fn V t) va viAcc F R HN) as (b & E & FB).
  unfold AccumulateSomeInplace. unfold AccumulateSome, f_dim in E. cbn [t_fn f_shape] in E.
  destruct (negb (length (t_shape t) =? 0)) eqn:EN.
  2: { rewrite Sh, map_length in EN. destruct va; [contradiction|discriminate]. }
  pose proof (acc_some_shapes nl va viAcc) as [H1 H2].
  pose proof (accP_len va viAcc) as LA. pose proof (keep_all va viAcc) as KA. pose proof (keep_acc_len va viAcc) as LK. cbv beta in LA, KA, LK.
  rewrite acc_positions_spec in E |- *. rewrite Sh in E |- *. rewrite H1, H2 in E |- *. cbn [bind] in E |- *. fold keep in KA, LK, E, FB |- *.
  rewrite LA in E |- *. set (accv := filter (fun v => existsb (Nat.eqb v) viAcc) va) in *. rewrite map_length in *.
  destruct (Nat.eqb_spec (length accv) (length va)) as [E1|E1].
  - exists b. split; auto. assert (EK : keep = []) by (apply length_zero_iff_nil; lia). rewrite EK in E.
    change {| f_shape := t_shape t; f_read := t_read V t |} with (t_fn V t) in E. rewrite EK. exact E.
  - destruct (Nat.eqb_spec (length accv) 0) as [E2|E2].
    + assert (EA : accv = []) by (apply length_zero_iff_nil; auto). rewrite KA by auto. exists t. split; auto.
      assert (EF : some_value nl va viAcc F = F); [|rewrite EF; auto].
      unfold some_value. fold accv. rewrite EA. auto.
    + exists b. split; auto.
Qed.
End Acc.
