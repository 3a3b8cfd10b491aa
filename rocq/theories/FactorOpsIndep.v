(** Independent factors: construction, element-wise operations, fixing variables. *)
From Coq Require Import Sorted.
From Verif Require Import Base ShapeSpec ShapeProofs IndexingModel IndexingProofs UtilModel FunctionBaseProofs MarrayProofs GmProofs
  FactorOpsModel FactorOpsSpec FactorOpsProofs FactorOpsTables FactorOpsAcc.

Section Indep.
Variables (V : Type) (v0 : V).

Lemma writen_partial : forall sh d g k v, k < length d ->
  t_writen V (mkTable sh (partial_data V g k d)) k v = Ret (mkTable sh (upd (partial_data V g k d) k v)).
Proof. intros. unfold t_writen. cbn [t_data t_shape]. rewrite wr_Ret by (rewrite partial_data_length; lia). auto. Qed.

Lemma of_factor_spec : forall nl f vars F, represents V nl f vars F ->
  exists t, if_of_factor V v0 f vars = Ret (mkIF vars t) /\ if_assign_factor V v0 f vars = Ret (mkIF vars t) /\ factor_is V nl t vars F.
Proof.
  intros nl f vars F R. pose proof R as (S & Sh & P & H). pose proof (map_positive nl vars P) as HP.
  unfold if_of_factor, if_assign_factor. destruct (Nat.eqb_spec (length vars) 0) as [Z|Z]; cbn [negb].
  - destruct vars; [|discriminate]. pose proof (H (fun _ => 0) [0]) as E. cbn [map app] in E. rewrite E by (intros v []). cbn [bind].
    eexists. split; [reflexivity|]. split; [reflexivity|]. apply factor_scalar. intros x. apply (represents_ext V nl f [] F _ _ R); intros v [].
  - assert (N : map nl vars <> []) by (intros Q; apply map_eq_nil in Q; subst; apply Z; auto).
    rewrite Sh, resize_fresh by auto. cbn [bind t_data].
    set (d := repeat v0 (size_of (map nl vars))). assert (LD : length d = size_of (map nl vars)) by (apply repeat_length).
    set (g := fun k => F (lab nl vars k)).
    assert (RD : forall k, f_read f (coord_of (map nl vars) k) = Ret (g k)).
    { intros k. pose proof (represents_lab V nl f vars F k [] R) as E. rewrite app_nil_r in E. auto. }
    exists (mkTable (map nl vars) (map g (seq 0 (length d)))). split; [|split].
    + rewrite (single_loop V (map nl vars) d _ g); auto. intros k Hk. rewrite RD. cbn [bind].
      pose proof (write_partial V (map nl vars) d g k (g k) [] HP LD Hk) as E2. rewrite app_nil_r in E2. auto.
    + assert (Gn : forall n, n <= length d -> exists w, foldM (fun (st : table V * list nat) k =>
          x <- f_read f (snd st) ;; t <- t_writen V (fst st) k x ;; w <- sw_next (map nl vars) (snd st) (length (map nl vars)) ;; Ret (t, w))
          (seq 0 n) (mkTable (map nl vars) d, sw_init (length (map nl vars))) = Ret (mkTable (map nl vars) (partial_data V g n d), w) /\
          (n < length d -> w = coord_of (map nl vars) n)).
      { induction n as [|n IH]; intros Hn.
        { eexists. split; [reflexivity|]. intros _. unfold sw_init. rewrite coord_of_0; auto. }
        destruct IH as (w & E & HW); [lia|]. rewrite foldM_seq_S, E. cbn [bind fst snd Nat.add]. rewrite HW by lia. rewrite RD. cbn [bind].
        rewrite writen_partial by lia. cbn [bind].
        destruct (sw_next_total (map nl vars) (coord_of (map nl vars) n)) as [c' E']. { apply coord_of_length. } rewrite E'. cbn [bind].
        exists c'. rewrite partial_data_step by lia. split; auto. intros HS. rewrite sw_next_spec in E' by (auto; lia). congruence. }
      destruct (Gn (length d)) as (w & E & _); auto. rewrite E. cbn [bind]. rewrite partial_data_all. auto.
    + rewrite LD. apply (build_factor V nl vars F); auto. intros x y HX HE. eapply represents_ext; eauto.
Qed.

Lemma operateUnary_spec : forall nl t vars F op, factor_is V nl t vars F ->
  exists t', if_operateUnary V op (mkIF vars t) = Ret (mkIF vars t') /\ factor_is V nl t' vars (fun x => op (F x)).
Proof.
  intros nl t vars F op FT. pose proof FT as [R LD]. pose proof R as (S & Sh & P & H). cbn [t_fn f_shape] in Sh.
  unfold if_operateUnary. cbn [if_vi if_fn]. set (g := fun k => op (F (lab nl vars k))).
  destruct t as [sh d]. cbn [t_shape t_data] in *. subst sh.
  assert (HG : factor_is V nl (mkTable (map nl vars) (map g (seq 0 (length d)))) vars (fun x => op (F x))).
  { rewrite LD. apply (build_factor V nl vars (fun x => op (F x))); auto. intros x y HX HE. f_equal. eapply represents_ext; eauto. }
  exists (mkTable (map nl vars) (map g (seq 0 (length d)))). split; auto.
  assert (EN : forall k, k < length d -> nth_error d k = Some (F (lab nl vars k))).
  { intros k Hk. apply (factor_entry V nl _ vars F k FT). lia. }
  assert (Gn : forall n, n <= length d -> foldM (fun t k => x <- t_readn V t k ;; t_writen V t k (op x)) (seq 0 n) (mkTable (map nl vars) d)
    = Ret (mkTable (map nl vars) (partial_data V g n d))).
  { induction n as [|n IH]; intros Hn; auto. rewrite foldM_seq_S, IH by lia. cbn [bind Nat.add].
    assert (ER : t_readn V (mkTable (map nl vars) (partial_data V g n d)) n = Ret (F (lab nl vars n))).
    { unfold t_readn, rd. cbn [t_data]. rewrite partial_data_nth, EN by lia. auto. }
    rewrite ER. cbn [bind]. rewrite writen_partial by lia.
    change (op (F (lab nl vars n))) with (g n). rewrite partial_data_step by lia. auto. }
  destruct (Nat.eqb_spec (length vars) 0) as [Z|Z]; cbn [negb].
  - destruct vars; [|discriminate]. cbn in LD. specialize (Gn 1 ltac:(lia)). cbn [seq foldM] in Gn.
    destruct (t_readn V (mkTable (map nl []) d) 0) as [x| | |]; cbn [bind] in Gn |- *; try discriminate.
    destruct (t_writen V (mkTable (map nl []) d) 0 (op x)); cbn [bind] in Gn |- *; try discriminate.
    injection Gn as ->. rewrite <- LD. rewrite partial_data_all. auto.
  - cbn [t_data]. rewrite Gn by auto. cbn [bind]. rewrite partial_data_all. auto.
Qed.

Lemma copy_spec : forall nl t vars F, factor_is V nl t vars F ->
  exists t', if_copy V (mkIF vars t) = Ret (mkIF vars t') /\ factor_is V nl t' vars F.
Proof.
  intros nl t vars F FT. unfold if_copy. cbn [if_vi if_fn]. destruct vars as [|v vars].
  - pose proof (factor_entry V nl t [] F 0 FT ltac:(cbn; lia)) as E. unfold t_readn, rd. rewrite E. cbn [bind].
    eexists. split; [reflexivity|]. apply factor_scalar. intros x. destruct FT as [R _]. apply (represents_ext V nl _ [] F _ _ R); intros v [].
  - eauto.
Qed.

Lemma fill_spec : forall nl vars value, StronglySorted lt vars -> (forall v, In v vars -> 0 < nl v) -> vars <> [] ->
  exists t, if_fill V v0 nl vars value = Ret (mkIF vars t) /\ factor_is V nl t vars (fun _ => value).
Proof.
  intros nl vars value S P HN. unfold if_fill. assert (N : map nl vars <> []) by (intros Q; apply map_eq_nil in Q; contradiction).
  rewrite resize_fresh by auto. cbn [bind]. eexists. split; [reflexivity|].
  pose proof (build_factor V nl vars (fun _ => value) S P ltac:(auto)) as B. cbv beta in B.
  replace (repeat value (size_of (map nl vars))) with (map (fun _ : nat => value) (seq 0 (size_of (map nl vars)))); auto.
  generalize (size_of (map nl vars)). intros n. generalize 0. induction n; intros a; cbn; auto. f_equal. auto.
Qed.

(** ** fixVariables *)
Lemma fix_find_spec : forall vars v l rest i vs ps ls, StronglySorted lt rest ->
  (In v rest -> exists q, nth_error rest q = Some v /\ fix_find vars v l i rest (vs, ps, ls) = (vs ++ [v], ps ++ [i + q], ls ++ [l])) /\
  (~ In v rest -> fix_find vars v l i rest (vs, ps, ls) = (vs, ps, ls)).
Proof.
  intros vars v l rest i vs ps ls HS. revert i. induction HS as [|y rest HS IH HF]; intros i.
  - split; [intros []|auto].
  - cbn [fix_find]. rewrite Forall_forall in HF. destruct (Nat.ltb_spec v y) as [L|L].
    { split; auto. intros [->|Hv]; [lia|]. apply HF in Hv. lia. }
    destruct (Nat.eqb_spec v y) as [->|Hne].
    + split; [|intros K; exfalso; apply K; left; auto]. intros _. exists 0. split; auto. rewrite Nat.add_0_r.
      destruct rest as [|z rest]; auto. cbn [fix_find]. rewrite (proj2 (Nat.ltb_lt y z)) by (apply HF; left; auto). auto.
    + destruct (IH (S i)) as [I1 I2]. split.
      * intros [->|Hv]; [contradiction|]. destruct (I1 Hv) as (q & Hq & E). exists (S q). split; auto. rewrite E. replace (S i + q) with (i + S q) by lia. auto.
      * intros Hv. apply I2. intros K. apply Hv. right. auto.
Qed.

(** what is collected after some of the indices *)
Definition collected (vars : list nat) (y : nat -> nat) (done : list nat) (vs ps ls : list nat) : Prop :=
  vs = filter (fun v => existsb (Nat.eqb v) vars) done /\ length ps = length vs /\ ls = map y vs /\
  forall j, j < length vs -> nth_error vars (nth j ps 0) = Some (nth j vs 0).

Lemma fix_collect_spec : forall vars, StronglySorted lt vars -> vars <> [] ->
  forall indices labels done vs ps ls y, StronglySorted lt (done ++ indices) -> length labels = length indices ->
  (forall j, j < length indices -> y (nth j indices 0) = nth j labels 0) ->
  collected vars y done vs ps ls ->
  exists vs' ps' ls', fix_collect vars indices labels (vs, ps, ls) = Ret (vs', ps', ls') /\ collected vars y (done ++ indices) vs' ps' ls'.
Proof.
  intros vars HS HN indices. induction indices as [|v indices IH]; intros labels done vs ps ls y SD HL HY HC.
  { rewrite app_nil_r. cbn [fix_collect]. eauto. }
  destruct labels as [|l labels]; [discriminate|]. cbn [fix_collect].
  assert (SV : forall u, In u indices -> v < u).
  { intros u Hu. clear - SD Hu. induction done as [|d done IHd]; cbn in SD; inversion SD; subst; auto. rewrite Forall_forall in *. auto. }
  destruct (Nat.ltb_spec (last vars 0) v) as [L|L].
  - exists vs, ps, ls. split; auto. destruct HC as (H1 & H2 & H3 & H4). split; [|auto].
    rewrite filter_app, <- H1. replace (filter (fun v => existsb (Nat.eqb v) vars) (v :: indices)) with (@nil nat); [rewrite app_nil_r; auto|].
    symmetry. assert (K : forall u, In u (v :: indices) -> existsb (Nat.eqb u) vars = false).
    { intros u Hu. destruct (existsb (Nat.eqb u) vars) eqn:E; auto. apply existsb_exists in E. destruct E as (w & Hw & Ew).
      apply Nat.eqb_eq in Ew. subst w. pose proof (sorted_last_ge vars u HS Hw). destruct Hu as [<-|Hu]; [lia|]. apply SV in Hu. lia. }
    revert K. generalize (v :: indices). intros m. induction m as [|u m IHm]; intros K; auto. cbn. rewrite K by (left; auto).
    apply IHm. intros w Hw. apply K. right; auto.
  - destruct (fix_find_spec vars v l vars 0 vs ps ls HS) as [F1 F2].
    assert (Ey : y v = l) by (apply (HY 0); cbn; lia).
    assert (HC' : exists vs1 ps1 ls1, fix_find vars v l 0 vars (vs, ps, ls) = (vs1, ps1, ls1) /\ collected vars y (done ++ [v]) vs1 ps1 ls1).
    { destruct HC as (H1 & H2 & H3 & H4). destruct (existsb (Nat.eqb v) vars) eqn:E.
      - assert (Hv : In v vars). { apply existsb_exists in E. destruct E as (w & Hw & Ew). apply Nat.eqb_eq in Ew. subst; auto. }
        destruct (F1 Hv) as (q & Hq & Eq). rewrite Eq. do 3 eexists. split; [reflexivity|]. split; [|split; [|split]].
        + rewrite filter_app. cbn. rewrite E. rewrite <- H1. auto.
        + rewrite !app_length. cbn. lia.
        + rewrite map_app. cbn. rewrite Ey, <- H3. auto.
        + intros j Hj. rewrite app_length in Hj. cbn in Hj. destruct (Nat.eq_dec j (length vs)) as [->|Hne].
          * rewrite !app_nth2 by lia. rewrite H2, Nat.sub_diag. cbn. auto.
          * rewrite !app_nth1 by lia. apply H4. lia.
      - assert (Hv : ~ In v vars). { intros Hv. rewrite <- Bool.not_true_iff_false in E. apply E. apply existsb_exists. exists v. split; auto. apply Nat.eqb_refl. }
        rewrite (F2 Hv). do 3 eexists. split; [reflexivity|]. split; auto. rewrite filter_app. cbn. rewrite E, app_nil_r. auto. }
    destruct HC' as (vs1 & ps1 & ls1 & E1 & C1). rewrite E1.
    destruct (IH labels (done ++ [v]) vs1 ps1 ls1 y) as (vs' & ps' & ls' & E' & C'); auto.
    { rewrite <- app_assoc. auto. } { intros j Hj. apply (HY (S j)). cbn. lia. }
    rewrite <- app_assoc in C'. eauto 6.
Qed.

Lemma sorted_of_nth : forall l, (forall i j, i < j -> j < length l -> nth i l 0 < nth j l 0) -> StronglySorted lt l.
Proof.
  induction l as [|a l IH]; intros H; constructor.
  - apply IH. intros i j Hij Hj. apply (H (S i) (S j)); cbn; lia.
  - apply Forall_forall. intros u Hu. destruct (In_nth l u 0 Hu) as (j & Hj & <-). apply (H 0 (S j)); cbn; lia.
Qed.

Lemma fix_unfold : forall t vars indices labels, vars <> [] -> if_fixVariables V v0 (mkIF vars t) indices labels =
     ('(variablesToFix, positionOfVariablesToFix, newStates) <- fix_collect vars indices labels ([], [], []) ;;
      let keep := filter (fun i => negb (existsb (Nat.eqb (nth i vars 0)) variablesToFix)) (seq 0 (length vars)) in
      let variablesNotToFix := map (fun i => nth i vars 0) keep in
      newShape <- mapM (rd (t_shape t)) keep ;;
      if negb (Nat.eqb (length variablesToFix) 0) then
        if Nat.eqb (length variablesToFix) (length vars) then
          x <- t_read V t newStates ;;
          Ret (mkIF [] (t_scalar V x))
        else
          let dim := length (t_shape t) in
          tmp <- t_resize V v0 (t_assign V) newShape v0 ;;
          sub <- ssw_init dim positionOfVariablesToFix newStates ;;
          subSize <- ssw_subSize (t_shape t) positionOfVariablesToFix dim ;;
          sub <- ssw_reset dim positionOfVariablesToFix newStates sub ;;
          '(tmp, _) <- foldM (fun (st : table V * list nat) k =>
              x <- t_read V t (snd st) ;;
              t' <- t_writen V (fst st) k x ;;
              w <- ssw_next (t_shape t) positionOfVariablesToFix (snd st) dim ;;
              Ret (t', w)) (seq 0 subSize) (tmp, sub) ;;
          Ret (mkIF variablesNotToFix tmp)
      else Ret (mkIF vars t)).
Proof. intros t vars indices labels HN. destruct vars as [|v vars]; [contradiction|reflexivity]. Qed.

Lemma fix_spec : forall nl t vars F indices labels, factor_is V nl t vars F -> StronglySorted lt indices -> length labels = length indices ->
  (forall j, j < length indices -> In (nth j indices 0) vars -> nth j labels 0 < nl (nth j indices 0)) ->
  let keep := filter (fun v => negb (existsb (Nat.eqb v) indices)) vars in
  exists t', if_fixVariables V v0 (mkIF vars t) indices labels = Ret (mkIF keep t') /\
    factor_is V nl t' keep (fun x => F (override x indices labels)).
Proof.
  intros nl t vars F indices labels FT SI LL HLab keep. pose proof FT as [R LD]. pose proof R as (S & Sh & P & H). cbn [t_fn f_shape] in Sh.
  assert (NDI : NoDup indices) by (apply sorted_NoDup; auto). assert (NDV : NoDup vars) by (apply sorted_NoDup; auto).
  assert (in_ex : forall v l, existsb (Nat.eqb v) l = true <-> In v l).
  { intros v l. rewrite existsb_exists. split.
    - intros (u & Hu & E). apply Nat.eqb_eq in E. subst; auto.
    - intros Hv. exists v. split; auto. apply Nat.eqb_refl. }
  destruct (list_eq_dec Nat.eq_dec vars []) as [EV|HN].
  { exists t. subst vars. split; [reflexivity|]. split; auto. split; auto. split; auto. split; auto.
    intros x rest HX. rewrite H by (intros v []). f_equal. apply (represents_ext V nl _ [] F _ _ R); intros v []. }
  rewrite fix_unfold by auto.
  set (y := override (fun _ => 0) indices labels).
  destruct (fix_collect_spec vars S HN indices labels [] [] [] [] y) as (vs & ps & ls & EC & (C1 & C2 & C3 & C4)); auto.
  { intros j Hj. unfold y. apply override_nth; auto. }
  { split; auto. split; auto. split; auto. cbn. intros; lia. }
  rewrite EC. cbn [bind app] in *. cbv zeta.
  (* the kept positions *)
  assert (EX : forall v, In v vars -> existsb (Nat.eqb v) vs = existsb (Nat.eqb v) indices).
  { intros v Hv. rewrite C1. apply Bool.eq_true_iff_eq. rewrite !in_ex, filter_In, in_ex. tauto. }
  assert (EK : map (fun i => nth i vars 0) (filter (fun i => negb (existsb (Nat.eqb (nth i vars 0)) vs)) (seq 0 (length vars))) = keep).
  { rewrite (filter_positions (fun v => negb (existsb (Nat.eqb v) vs))). unfold keep. apply filter_ext_in. intros v Hv. rewrite EX; auto. }
  set (kp := filter (fun i => negb (existsb (Nat.eqb (nth i vars 0)) vs)) (seq 0 (length vars))) in *.
  assert (KP : forall i, In i kp -> i < length vars). { intros i Hi. apply filter_In in Hi. destruct Hi as [Hi _]. apply in_seq in Hi. lia. }
  assert (SK : StronglySorted lt keep) by (apply sorted_filter; auto).
  assert (PK : forall v, In v keep -> 0 < nl v) by (intros v Hv; apply filter_In in Hv; apply P; tauto).
  assert (NK : NoDup keep) by (apply sorted_NoDup; auto).
  assert (ESh : map (fun i => nth i (map nl vars) 0) kp = map nl keep) by (rewrite map_nl_nth by auto; rewrite EK; auto).
  rewrite Sh. rewrite (mapM_Ret _ _ _ (fun i => nth i (map nl vars) 0)) by (intros i Hi; apply rd_nth; rewrite map_length; auto).
  rewrite ESh. cbn [bind].
  assert (VSin : forall v, In v vs <-> In v indices /\ In v vars) by (intros v; rewrite C1, filter_In, in_ex; tauto).
  assert (legal_y : forall x, legal nl keep x -> legal nl vars (override x indices labels)).
  { intros x HX v Hv. destruct (existsb (Nat.eqb v) indices) eqn:E.
    - apply in_ex in E. destruct (In_nth indices v 0 E) as (j & Hj & <-). rewrite override_nth by auto. apply HLab; auto.
    - rewrite override_out by (rewrite <- in_ex, E; discriminate). apply HX. apply filter_In. rewrite E. auto. }
  assert (G_ext : forall x z, legal nl keep x -> (forall v, In v keep -> x v = z v) -> F (override x indices labels) = F (override z indices labels)).
  { intros x z HX HE. apply (represents_ext V nl _ vars F _ _ R); auto. intros v Hv. destruct (existsb (Nat.eqb v) indices) eqn:E.
    - apply in_ex in E. destruct (In_nth indices v 0 E) as (j & Hj & <-). rewrite !override_nth by auto. auto.
    - rewrite !override_out by (rewrite <- in_ex, E; discriminate). apply HE. apply filter_In. rewrite E. auto. }
  destruct (Nat.eqb_spec (length vs) 0) as [Z|Z]; cbn [negb].
  { (* nothing to fix *)
    assert (VN : vs = []) by (apply length_zero_iff_nil; auto).
    assert (KV : keep = vars).
    { unfold keep. clear - VSin VN in_ex. subst vs. assert (K : forall v, In v vars -> existsb (Nat.eqb v) indices = false).
      { intros v Hv. destruct (existsb (Nat.eqb v) indices) eqn:E; auto. apply in_ex in E. exfalso. apply (VSin v); auto. }
      clear VSin. induction vars as [|v l IH]; auto. cbn. rewrite K by (left; auto). cbn. f_equal. apply IH. intros; apply K; right; auto. }
    rewrite KV in *. exists t. split; auto. split; auto. split; auto. split; auto. split; auto.
    intros x rest HX. rewrite H by auto. f_equal. apply (represents_ext V nl _ vars F _ _ R); auto. intros v Hv. rewrite override_out; auto.
    intros K. rewrite VN in VSin. apply (VSin v); auto. }
  assert (SVS : StronglySorted lt vs) by (rewrite C1; apply sorted_filter; auto).
  assert (NVS : NoDup vs) by (apply sorted_NoDup; auto).
  destruct (Nat.eqb_spec (length vs) (length vars)) as [E|E].
  { (* all variables are fixed *)
    assert (EV : vs = vars).
    { apply sorted_ext; auto. intros u. split; [intros Hu; apply VSin; auto|]. apply (NoDup_length_incl NVS); [lia|]. intros w Hw. apply VSin; auto. }
    assert (KN : keep = []).
    { unfold keep. clear - VSin EV in_ex. assert (K : forall v, In v vars -> existsb (Nat.eqb v) indices = true).
      { intros v Hv. apply in_ex. apply VSin. rewrite EV. auto. }
      clear VSin EV. induction vars as [|v l IH]; auto. cbn. rewrite K by (left; auto). cbn. apply IH. intros; apply K; right; auto. }
    rewrite C3, EV. pose proof (H y []) as E1. rewrite app_nil_r in E1. cbn [t_fn f_read] in E1. rewrite E1.
    - cbn [bind]. rewrite KN. eexists. split; [reflexivity|]. apply factor_scalar. intros x. apply (G_ext (fun _ => 0) x); rewrite KN; intros v [].
    - apply legal_y. rewrite KN. intros v []. }
  (* some variables are fixed *)
  assert (PSlt : forall j, j < length ps -> nth j ps 0 < length vars).
  { intros j Hj. apply nth_error_Some. rewrite C4 by lia. discriminate. }
  assert (PSn : forall j, j < length ps -> nth (nth j ps 0) vars 0 = nth j vs 0).
  { intros j Hj. apply nth_error_nth. apply C4. lia. }
  assert (SPS : StronglySorted lt ps).
  { apply sorted_of_nth. intros i j Hij Hj.
    destruct (Nat.lt_ge_cases (nth i ps 0) (nth j ps 0)) as [|K]; auto. exfalso.
    assert (nth j vs 0 <= nth i vs 0).
    { rewrite <- !PSn by lia. destruct (Nat.eq_dec (nth j ps 0) (nth i ps 0)) as [->|Hne]; auto. apply Nat.lt_le_incl. apply sorted_lt_nth; auto; [lia|apply PSlt; lia]. }
    pose proof (sorted_lt_nth vs i j SVS Hij ltac:(lia)). lia. }
  assert (HB : Forall (fun i => i < length (map nl vars)) ps).
  { apply Forall_forall. intros i Hi. destruct (In_nth ps i 0 Hi) as (j & Hj & <-). rewrite map_length. auto. }
  assert (LS : length ls = length ps) by (rewrite C3, map_length; auto).
  pose proof (map_positive nl vars P) as HP.
  assert (FREE : filter (fun i => negb (existsb (Nat.eqb i) ps)) (seq 0 (length (map nl vars))) = kp).
  { rewrite map_length. unfold kp. apply filter_ext_in. intros i Hi. apply in_seq in Hi. f_equal. apply Bool.eq_true_iff_eq. rewrite !in_ex. split; intros K.
    - destruct (In_nth ps i 0 K) as (j & Hj & <-). rewrite PSn by auto. apply nth_In. lia.
    - destruct (In_nth vs _ 0 K) as (j & Hj & Ej). rewrite <- PSn in Ej by lia. apply (sorted_nth_inj vars) in Ej; auto; [|apply PSlt; lia|lia].
      rewrite <- Ej. apply nth_In. lia. }
  assert (KNE : keep <> []).
  { intros KN. apply E. assert (LK : forall v, In v vars -> In v vs).
    { intros v Hv. apply VSin. split; auto. apply in_ex. destruct (existsb (Nat.eqb v) indices) eqn:EE; auto.
      assert (In v keep) by (apply filter_In; rewrite EE; auto). rewrite KN in H0. destruct H0. }
    apply Nat.le_antisymm; apply NoDup_incl_length; auto. intros v Hv. apply VSin; auto. }
  rewrite resize_fresh by (intros Q; apply map_eq_nil in Q; contradiction). cbn [bind].
  destruct (ssw_init_spec (map nl vars) ps ls HP SPS LS HB) as (c0 & E0 & S0). rewrite E0. cbn [bind].
  rewrite ssw_subSize_spec by auto. rewrite FREE, ESh. cbn [bind].
  rewrite ssw_reset_spec by (auto; apply S0). rewrite E0. cbn [bind].
  set (d := repeat v0 (size_of (map nl keep))). assert (LDd : length d = size_of (map nl keep)) by (apply repeat_length).
  set (g := fun k => F (override (lab nl keep k) indices labels)).
  assert (ST : forall k c, ssw_state (map nl vars) ps ls k c -> c = map (override (lab nl keep k) indices labels) vars).
  { intros k c (L & H1 & H2). rewrite FREE, ESh in H2. rewrite map_length in L.
    set (z := override (lab nl keep k) indices labels).
    apply nth_ext with (d := 0) (d' := z 0); [rewrite map_length; auto|]. intros i Hi. rewrite map_nth. rewrite L in Hi.
    destruct (existsb (Nat.eqb (nth i vars 0)) vs) eqn:EE.
    - apply in_ex in EE. destruct (In_nth vs _ 0 EE) as (j & Hj & Ej).
      assert (EI : i = nth j ps 0). { rewrite <- PSn in Ej by lia. apply (sorted_nth_inj vars) in Ej; auto. apply PSlt; lia. }
      rewrite EI at 1. rewrite H1 by lia. rewrite C3. rewrite (nth_indep _ 0 (y 0)) by (rewrite map_length; auto). rewrite map_nth, Ej.
      apply VSin in EE. destruct EE as [EE _]. destruct (In_nth indices _ 0 EE) as (q & Hq & Eq). unfold y, z. rewrite <- Eq. rewrite !override_nth; auto.
    - assert (Hk : In i kp) by (apply filter_In; split; [apply in_seq; lia|rewrite EE; auto]).
      destruct (In_nth kp i 0 Hk) as (q & Hq & Eq).
      assert (Ekq : nth i vars 0 = nth q keep 0) by (rewrite <- EK, nth_map_nth by auto; rewrite Eq; auto).
      unfold z. rewrite override_out.
      + rewrite Ekq. unfold lab. rewrite override_nth; auto.
        * rewrite <- H2, nth_map_nth by auto. rewrite Eq. auto.
        * rewrite coord_of_length, map_length. auto.
        * rewrite <- EK, map_length. auto.
      + rewrite <- in_ex. rewrite <- EX by (apply nth_In; auto). rewrite EE. discriminate. }
  assert (Gn : forall n, n <= length d -> exists w, foldM (fun (st : table V * list nat) k =>
              x <- t_read V t (snd st) ;;
              t' <- t_writen V (fst st) k x ;;
              w <- ssw_next (map nl vars) ps (snd st) (length (map nl vars)) ;;
              Ret (t', w)) (seq 0 n) (mkTable (map nl keep) d, c0) = Ret (mkTable (map nl keep) (partial_data V g n d), w) /\
      length w = length (map nl vars) /\ (n < length d -> ssw_state (map nl vars) ps ls n w)).
  { induction n as [|n IH]; intros Hn.
    { exists c0. split; auto. split; auto. apply S0. }
    destruct IH as (w & E1 & L1 & S1); [lia|]. rewrite foldM_seq_S, E1. cbn [bind fst snd Nat.add].
    assert (STn : ssw_state (map nl vars) ps ls n w) by (apply S1; lia).
    assert (Er : t_read V t w = Ret (g n)).
    { rewrite (ST n w STn). pose proof (H (override (lab nl keep n) indices labels) []) as E2. rewrite app_nil_r in E2. cbn [t_fn f_read] in E2.
      apply E2. apply legal_y. apply lab_legal; auto. }
    rewrite Er. cbn [bind]. rewrite writen_partial by lia. cbn [bind].
    destruct (ssw_next_total (map nl vars) ps w L1) as (w' & E2 & L2). rewrite E2. cbn [bind].
    exists w'. rewrite partial_data_step by lia. split; auto. split; auto. intros HS.
    destruct (ssw_next_spec (map nl vars) ps ls n w HP SPS LS HB STn) as (c' & Ec & Sc).
    { rewrite FREE, ESh. lia. }
    congruence. }
  rewrite <- LDd. destruct (Gn (length d)) as (w & E1 & _); auto. rewrite E1. cbn [bind]. rewrite EK.
  eexists. split; [reflexivity|]. rewrite partial_data_all, LDd.
  apply (build_factor V nl keep (fun x => F (override x indices labels))); auto.
Qed.
End Indep.
