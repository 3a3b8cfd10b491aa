(** C35: the sub-model of a Movemaker gives every joint relabeling of the chosen variables its value in the full
    model, up to a constant. *)
From Verif Require Import Base Values GmView GmViewSpec ShapeSpec ShapeProofs GmProofs GmViewProofs OperationsModel GmViewProps
  UtilModel UtilProps FunctionViewsModel FunctionViewsProps MovemakerModel MovemakerSpec MovemakerProofs MovemakerSearch MovemakerProps IcmProofs SubmodelModel.
From Coq Require Import Sorted.
#[local] Arguments nth_error : simpl never.

Lemma Forall2_nth_l : forall A B (P : A -> B -> Prop) l1 l2 k a, Forall2 P l1 l2 -> nth_error l1 k = Some a ->
  exists b, nth_error l2 k = Some b /\ P a b.
Proof.
  intros A B P l1 l2 k a H. revert k. induction H as [|x y l1 l2 H H2 IH]; intros [|k] E; try discriminate.
  - change (Some x = Some a) in E. injection E as ->. exists y. auto.
  - apply (IH k). exact E.
Qed.
Lemma Forall2_upd_r : forall A B (P : A -> B -> Prop) l1 l2 k a b, Forall2 P l1 l2 -> nth_error l1 k = Some a -> P a b ->
  Forall2 P l1 (upd l2 k b).
Proof.
  intros A B P l1 l2 k a b H. revert k. induction H as [|x y l1 l2 H H2 IH]; intros [|k] E HP; try discriminate; cbn [upd].
  - change (Some x = Some a) in E. injection E as ->. constructor; auto.
  - constructor; auto.
Qed.
Lemma sorted_nth_lt : forall l a b u w, StronglySorted lt l -> nth_error l a = Some u -> nth_error l b = Some w -> u < w -> a < b.
Proof.
  intros l a b u w H. revert a b. induction H as [|h l H IH HF]; intros [|a] [|b] Ha Hb L; cbn in Ha, Hb; try discriminate.
  - change (Some h = Some u) in Ha. change (Some h = Some w) in Hb. injection Ha as ->. injection Hb as ->. lia.
  - lia.
  - change (nth_error l a = Some u) in Ha. change (Some h = Some w) in Hb. injection Hb as ->. rewrite Forall_forall in HF.
    specialize (HF u (nth_error_In _ _ Ha)). lia.
  - assert (a < b) by (eapply IH; eauto). lia.
Qed.
Lemma sorted_nth_lt' : forall l a b u w, StronglySorted lt l -> nth_error l a = Some u -> nth_error l b = Some w -> a < b -> u < w.
Proof.
  intros l a b u w H. revert a b. induction H as [|h l H IH HF]; intros [|a] [|b] Ha Hb L; try lia; try discriminate.
  - change (Some h = Some u) in Ha. injection Ha as ->. change (nth_error l b = Some w) in Hb. rewrite Forall_forall in HF. apply HF. eapply nth_error_In; eauto.
  - eapply IH; eauto. lia.
Qed.
Lemma SSorted_snoc : forall l a, StronglySorted lt l -> Forall (fun b => b < a) l -> StronglySorted lt (l ++ [a]).
Proof.
  intros l a H. induction H as [|h l H IH HF]; intros HL; cbn; [repeat constructor|]. apply Forall_cons_iff in HL. destruct HL as [Ha HL].
  constructor; auto. apply Forall_app. split; auto.
Qed.
Lemma increasing_ok : forall n vis prev, StronglySorted lt vis -> Forall (fun v => v < n) vis ->
  match prev with None => True | Some p => Forall (fun v => p < v) vis end -> increasing prev n vis = true.
Proof.
  intros n vis prev H. revert prev. induction H as [|v vis H IH HF]; intros prev HB HP; auto. cbn [increasing].
  apply Forall_cons_iff in HB. destruct HB as [Hv HB]. rewrite IH by auto. rewrite (proj2 (Nat.ltb_lt v n) Hv).
  destruct prev as [p|]; auto. apply Forall_cons_iff in HP. destruct HP as [Hp _]. rewrite (proj2 (Nat.ltb_lt p v) Hp). auto.
Qed.
Lemma find_pos : forall vars v, StronglySorted lt vars -> vars <> [] ->
  (exists i, findInSortedSequence (map Z.of_nat vars) (Z.of_nat v) = Ret (Some i) /\ nth_error vars i = Some v) \/
  (findInSortedSequence (map Z.of_nat vars) (Z.of_nat v) = Ret None /\ ~ In v vars).
Proof.
  intros vars v HS HN. destruct (C31_findInSortedSequence (map Z.of_nat vars) (Z.of_nat v)) as (r & E & H).
  - destruct vars; [congruence|discriminate].
  - clear HN. induction HS as [|a l HS IH HF]; [constructor|]. cbn. constructor; auto. destruct l as [|b l]; [constructor|]. cbn. constructor.
    apply Forall_cons_iff in HF. lia.
  - destruct r as [i|].
    + left. exists i. split; auto. destruct H as [H _]. rewrite nth_error_map in H. destruct (nth_error vars i) as [w|]; [|discriminate].
      cbn in H. injection H as H. f_equal. lia.
    + right. split; auto. intros X. apply H. apply in_map. auto.
Qed.
Lemma free_S : forall j pl, free (S j) pl = free j pl ++ (if fixed_at pl j then [] else [j]).
Proof. intros. unfold free, free_from. rewrite seq_S, filter_app. cbn. destruct (fixed_at pl j); auto. Qed.
Lemma mapM_rd_shape : forall (l : list nat) vis, Forall (fun v => v < length l) vis -> mapM (rd l) vis = Ret (map (fun v => nth v l 0) vis).
Proof. intros. rewrite mapM_rd by auto. auto. Qed.

Section S.
Variable T : Type.
Variable OP : oper T.
Variable fin : T -> Prop.
Hypothesis OL : op_laws fin OP.
Variable g : gmv T.
Hypothesis W : wf_gmv g.
Hypothesis FG : fin_gmv fin g.
Variable m : mm T.
Variable vars : list nat.
Hypothesis O : mm_ok T OP g m.
Hypothesis HV : StronglySorted lt vars.
Hypothesis HR : Forall (fun v => v < length (v_labels g)) vars.
Let x := mm_state m.
Let n := length (v_labels g).

Lemma vars_distinct : distinct_vars g vars.
Proof. split; [apply sorted_nodup; auto|auto]. Qed.
Lemma x_length : length x = n.
Proof. apply labeling_length. apply O. Qed.

Lemma split_ok : forall vis, StronglySorted lt vis -> Forall (fun v => v < n) vis -> vars <> [] ->
  exists inner fixed, split_factor T m vars vis = Ret (inner, fixed) /\ fixing (length vis) fixed /\ StronglySorted lt inner /\ Forall (fun i => i < length vars) inner /\
    (forall p l, In (p, l) fixed -> exists v, nth_error vis p = Some v /\ ~ In v vars /\ nth v x 0 = l) /\
    Forall2 (fun i p => exists v, nth_error vis p = Some v /\ nth_error vars i = Some v) inner (free (length vis) fixed).
Proof.
  intros vis HS HB HN. unfold split_factor.
  set (step := fun (p : list nat * list pal) vv => v <- rd vis vv ;; o <- findInSortedSequence (map Z.of_nat vars) (Z.of_nat v) ;;
           match o with None => s <- rd (mm_state m) v ;; Ret (fst p, snd p ++ [(vv, s)]) | Some i => Ret (fst p ++ [i], snd p) end).
  assert (G : forall j, j <= length vis -> exists inner fixed, foldM step (seq 0 j) ([], []) = Ret (inner, fixed) /\ fixing j fixed /\ StronglySorted lt inner /\ Forall (fun i => i < length vars) inner /\
    (forall p l, In (p, l) fixed -> exists v, nth_error vis p = Some v /\ ~ In v vars /\ nth v x 0 = l) /\
    Forall2 (fun i p => exists v, nth_error vis p = Some v /\ nth_error vars i = Some v) inner (free j fixed)).
  { induction j as [|j IH]; intros Hj.
    - exists [], []. split; auto. split; [split; constructor|]. split; [constructor|]. split; [constructor|]. split; [intros p l []|constructor].
    - destruct IH as (inner & fixed & E & [F1 F2] & SI & BI & HF & H2); [lia|]. rewrite seq_S, foldM_app, E. cbn [bind foldM]. rewrite Nat.add_0_l. unfold step at 1.
      destruct (nth_error vis j) as [v|] eqn:Ev; [|apply nth_error_None in Ev; lia]. rewrite (rd_Ret _ _ _ _ Ev). cbn [bind].
      assert (Hv : v < n) by (rewrite Forall_forall in HB; apply HB; eapply nth_error_In; eauto).
      assert (FJ : fixed_at fixed j = false).
      { apply not_true_is_false. rewrite fixed_at_In, in_map_iff. intros (q & <- & Hq). rewrite Forall_forall in F2. specialize (F2 _ Hq). lia. }
      destruct (find_pos vars v HV HN) as [(i & Ei & Hi)|[Ei Hi]]; rewrite Ei; cbn [bind fst snd].
      + exists (inner ++ [i]), fixed. split; auto. split; [split; auto; eapply Forall_impl; [|exact F2]; intros [? ?] ?; cbn [fst] in *; lia|].
        assert (LT : Forall (fun b => b < i) inner).
        { apply Forall_forall. intros b Hb. apply In_nth_error in Hb. destruct Hb as [q Hq].
          destruct (Forall2_nth_l _ _ _ _ _ _ _ H2 Hq) as (p & Hp & (w & W1 & W2)).
          apply (sorted_nth_lt vars b i w v); auto. apply (sorted_nth_lt' vis p j); auto. apply nth_error_In, free_In in Hp. lia. }
        split; [apply SSorted_snoc; auto|]. split; [apply Forall_app; split; auto; constructor; auto; apply nth_error_Some; congruence|]. split; auto.
        rewrite free_S, FJ. apply Forall2_app; auto. constructor; [|constructor]. exists v. auto.
      + rewrite (rd_nth _ (mm_state m) v 0) by (fold x; rewrite x_length; auto). cbn [bind]. exists inner, (fixed ++ [(j, nth v x 0)]). split; auto.
        split.
        { split.
          - rewrite map_app. cbn [map fst]. apply SSorted_snoc; auto. rewrite Forall_map. exact F2.
          - apply Forall_app. split; [eapply Forall_impl; [|exact F2]; intros [? ?] ?; cbn [fst] in *; lia|]. repeat constructor. }
        split; auto. split; auto. split.
        { intros p l Hp. apply in_app_iff in Hp. destruct Hp as [Hp|[Hp|[]]]; auto. injection Hp as <- <-. eauto. }
        rewrite free_S. replace (fixed_at (fixed ++ [(j, nth v x 0)]) j) with true.
        2:{ symmetry. apply fixed_at_In. rewrite map_app. apply in_or_app. right. left. auto. }
        rewrite app_nil_r. unfold free. rewrite (free_ext 0 j _ fixed); auto.
        intros i Hi'. unfold fixed_at. rewrite existsb_app. cbn. destruct (Nat.eqb_spec j i); [lia|]. rewrite !orb_false_r. auto. }
  destruct (G (length vis) (le_n _)) as (inner & fixed & H). exists inner, fixed. exact H.
Qed.

(** A factor of the sub-model stands for factor [k]. *)
Definition sf_ok (k : nat) (sf : list nat * sfun T) : Prop :=
  exists fc, nth_error (v_factors g) k = Some fc /\ Forall (fun i => i < length vars) (fst sf) /\
  match snd sf with
  | SView f => fa_shape f = map (fun v => nth v (v_labels g) 0) (fst fc) /\ fa_value f = snd fc /\
      forall y, in_shape (labels_of g vars) y -> at_vars y (fst sf) = at_vars (relabel x vars y) (fst fc)
  | SFix v => exists f fixed, fixing (length (fa_shape f)) fixed /\ vf_ok T f fixed v /\
      fa_shape f = map (fun v => nth v (v_labels g) 0) (fst fc) /\ fa_value f = snd fc /\ length (fst sf) = length (fst fc) - length fixed /\
      forall y, in_shape (labels_of g vars) y -> filled (length (fst fc)) fixed (at_vars y (fst sf)) (at_vars (relabel x vars y) (fst fc))
  end.

Lemma relabel_pos : forall y i v, in_shape (labels_of g vars) y -> nth_error vars i = Some v -> nth i y 0 = nth v (relabel x vars y) 0.
Proof.
  intros y i v Hy Hi. pose proof (relabel_at vars y x (proj1 vars_distinct)) as H.
  assert (LY : length y = length vars) by (apply in_shape_length in Hy; unfold labels_of in Hy; rewrite map_length in Hy; auto).
  rewrite <- H at 1; [|rewrite x_length; exact HR|exact LY].
  assert (i < length vars) by (apply nth_error_Some; congruence).
  rewrite nth_map_in by auto. rewrite (nth_error_nth _ _ 0 Hi). auto.
Qed.

Lemma filled_ok : forall vis inner fixed y, Forall (fun v => v < n) vis -> in_shape (labels_of g vars) y -> fixing (length vis) fixed ->
  (forall p l, In (p, l) fixed -> exists v, nth_error vis p = Some v /\ ~ In v vars /\ nth v x 0 = l) ->
  Forall2 (fun i p => exists v, nth_error vis p = Some v /\ nth_error vars i = Some v) inner (free (length vis) fixed) ->
  filled (length vis) fixed (at_vars y inner) (at_vars (relabel x vars y) vis).
Proof.
  intros vis inner fixed y HB Hy [F1 F2] HF H2. unfold at_vars. split; [apply map_length|]. split.
  - intros p l Hp. destruct (HF p l Hp) as (v & Ev & NI & <-). assert (p < length vis) by (apply nth_error_Some; congruence).
    rewrite nth_map_in by auto. rewrite (nth_error_nth _ _ 0 Ev). apply relabel_off. auto.
  - induction H2 as [|i p inner ps (v & E1 & E2) H2 IH]; auto. cbn [map]. f_equal; auto.
    assert (p < length vis) by (apply nth_error_Some; congruence).
    rewrite nth_map_in by auto. rewrite (nth_error_nth _ _ 0 E1). symmetry. apply relabel_pos; auto.
Qed.

(** The state while building. *)
Definition built (ks : list nat) (st : subgm T * list nat) : Prop :=
  s_labels (fst st) = labels_of g vars /\ Forall2 sf_ok ks (s_factors (fst st)) /\ NoDup ks /\ (forall k, In k (snd st) <-> In k ks).

Lemma facv_ok : forall k fc, nth_error (v_factors g) k = Some fc -> factor_facv T g fc = Ret (mkFacv (map (fun v => nth v (v_labels g) 0) (fst fc)) (snd fc)).
Proof. intros k fc E. unfold factor_facv. destruct (wf_nth _ _ _ _ W E) as [_ HB]. rewrite mapM_rd_shape by auto. auto. Qed.

Lemma sub_factor_ok : forall subVi v k ks st, nth_error vars subVi = Some v -> In k (v_adj T g v) -> built ks st ->
  exists ks' st', sub_factor T g m vars subVi st k = Ret st' /\ built ks' st' /\ In k ks' /\ incl ks ks'.
Proof.
  intros subVi v k ks [s added] Ev Hk (BL & BF & BN & BA). cbn [fst snd] in *. unfold sub_factor.
  assert (Hvi : subVi < length vars) by (apply nth_error_Some; congruence).
  assert (HN : vars <> []) by (intros X; rewrite X in Ev; destruct subVi; discriminate).
  destruct (existsb (Nat.eqb k) added) eqn:EX.
  { apply existsb_exists in EX. destruct EX as (q & Hq & E). apply Nat.eqb_eq in E. subst q. exists ks, (s, added).
    split; auto. split; [split; auto|]. split; [apply BA; auto|apply incl_refl]. }
  assert (NI : ~ In k ks).
  { intros X. apply BA in X. assert (existsb (Nat.eqb k) added = true) by (apply existsb_exists; exists k; split; auto; apply Nat.eqb_refl). congruence. }
  apply v_adj_spec in Hk. destruct Hk as (fc & Ek & Hv). rewrite (rd_Ret _ _ _ _ Ek). cbn [bind]. rewrite (facv_ok _ _ Ek). cbn [bind].
  destruct (wf_nth _ _ _ _ W Ek) as [HS HB]. set (f := mkFacv (map (fun v => nth v (v_labels g) 0) (fst fc)) (snd fc)).
  assert (LF : length (fa_shape f) = length (fst fc)) by (cbn; apply map_length).
  assert (DONE : forall sf, sf_ok k sf -> StronglySorted lt (fst sf) ->
     exists ks' st', (s <- sub_addFactor T s (snd sf) (fst sf) ;; Ret (s, sins k added)) = Ret st' /\ built ks' st' /\ In k ks' /\ incl ks ks').
  { intros sf SF SS. unfold sub_addFactor. rewrite increasing_ok; auto.
    2:{ rewrite BL. unfold labels_of. rewrite map_length. destruct SF as (? & _ & X & _). auto. }
    cbn [bind]. exists (ks ++ [k]). eexists. split; [reflexivity|]. cbn [fst snd]. split; [|split].
    - split; [auto|]. split; [cbn [fst s_factors]; apply Forall2_app; [exact BF|]; constructor; [destruct sf; exact SF|constructor]|].
      split; [apply NoDup_app_intro; auto; [constructor; auto; constructor|intros a H1 [<-|[]]; auto]|].
      intros q. cbn [snd]. rewrite sins_In, BA, in_app_iff. cbn. intuition.
    - apply in_or_app. right. left. auto.
    - apply incl_appl, incl_refl. }
  destruct (Nat.eqb_spec (length (fst fc)) 0) as [L0|L0]; [destruct (fst fc); [destruct Hv|discriminate]|].
  destruct (Nat.eqb_spec (length (fst fc)) 1) as [L1|L1].
  - apply (DONE ([subVi], SView f)); [|repeat constructor]. exists fc. split; auto. cbn [fst snd]. split; [repeat constructor; auto|].
    split; [auto|]. split; [auto|]. intros y Hy. destruct (fst fc) as [|w [|? ?]]; try discriminate. destruct Hv as [->|[]]. cbn [at_vars map]. f_equal. apply relabel_pos; auto.
  - destruct (split_ok (fst fc) HS HB HN) as (inner & fixed & E & F & SI & BI & HF & H2). rewrite E. cbn [bind].
    destruct (Nat.eqb_spec (length fixed) 0) as [Z|Z].
    + apply (DONE (inner, SView f)); auto. exists fc. split; auto. cbn [fst snd]. split; auto. split; [auto|]. split; [auto|]. intros y Hy.
      destruct fixed as [|? ?]; [|discriminate]. destruct (filled_ok (fst fc) inner [] y HB Hy F HF H2) as (A1 & A2 & A3). rewrite <- A3.
      unfold free. rewrite free_none by auto. rewrite <- A1 at 1. apply map_nth_seq.
    + destruct (vf_new_ok T f fixed) as (vf & EV & OV); [rewrite LF; auto|]. rewrite EV. cbn [bind].
      apply (DONE (inner, SFix vf)); auto. exists fc. split; auto. cbn [fst snd]. split; auto. exists f, fixed.
      split; [rewrite LF; auto|]. split; auto. split; [auto|]. split; [auto|]. split; [|intros y Hy; apply filled_ok; auto].
      rewrite <- (free_length _ _ F). clear - H2. induction H2; cbn; auto.
Qed.

Lemma sub_var_ok : forall subVi v l ks st, nth_error vars subVi = Some v -> (forall k, In k l -> In k (v_adj T g v)) -> built ks st ->
  exists ks' st', foldM (sub_factor T g m vars subVi) l st = Ret st' /\ built ks' st' /\ incl l ks' /\ incl ks ks'.
Proof.
  intros subVi v l. induction l as [|k l IH]; intros ks st Ev HL HBt.
  - exists ks, st. split; auto. split; auto. split; [intros ? []|apply incl_refl].
  - cbn [foldM]. destruct (sub_factor_ok subVi v k ks st Ev (HL k (or_introl eq_refl)) HBt) as (k1 & s1 & E1 & B1 & I1 & J1). rewrite E1. cbn [bind].
    destruct (IH k1 s1 Ev) as (k2 & s2 & E2 & B2 & I2 & J2); auto. { intros; apply HL; right; auto. }
    exists k2, s2. split; auto. split; auto. split; [intros q [<-|Hq]; auto|eapply incl_tran; eauto].
Qed.

Lemma sub_build_ok : exists ks s, sub_build T g m vars = Ret s /\ s_labels s = labels_of g vars /\ Forall2 sf_ok ks (s_factors s) /\ NoDup ks /\
  forall v k, In v vars -> In k (v_adj T g v) -> In k ks.
Proof.
  unfold sub_build. rewrite mapM_rd_shape by auto. cbn [bind]. rewrite map_length.
  assert (G : forall j, j <= length vars -> exists ks st, foldM (fun st subVi => v <- rd vars subVi ;; foldM (sub_factor T g m vars subVi) (v_adj T g v) st) (seq 0 j) (mkSub (labels_of g vars) [], []) = Ret st /\
     built ks st /\ forall i v k, i < j -> nth_error vars i = Some v -> In k (v_adj T g v) -> In k ks).
  { induction j as [|j IH]; intros Hj.
    - exists []. eexists. split; [reflexivity|]. split; [|lia]. split; [auto|]. split; [constructor|]. split; [constructor|]. cbn. tauto.
    - destruct IH as (ks & st & E & B & H); [lia|]. rewrite seq_S, foldM_app, E. cbn [bind foldM]. rewrite Nat.add_0_l.
      destruct (nth_error vars j) as [v|] eqn:Ev; [|apply nth_error_None in Ev; lia]. rewrite (rd_Ret _ _ _ _ Ev). cbn [bind].
      destruct (sub_var_ok j v (v_adj T g v) ks st Ev) as (k1 & s1 & E1 & B1 & I1 & J1); auto. rewrite E1. cbn [bind]. exists k1, s1. split; auto. split; auto.
      intros i w k Hi Ew Hk. destruct (Nat.eq_dec i j) as [->|N]; [rewrite Ev in Ew; injection Ew as <-; auto|]. apply J1. eapply H; eauto. lia. }
  destruct (G (length vars) (le_n _)) as (ks & st & E & (BL & BF & BN & BA) & H). fold (labels_of g vars). rewrite E. cbn [bind]. exists ks, (fst st). split; auto. split; auto. split; auto. split; auto.
  intros v k Hv Hk. apply In_nth_error in Hv. destruct Hv as [i Hi]. eapply (H i v k); eauto. apply nth_error_Some. congruence.
Qed.

(** Evaluating the sub-model. *)
Lemma at_length : forall y l, length (at_vars y l) = length l. Proof. intros. apply map_length. Qed.
Lemma sub_step_ok : forall y i k acc fs ks, in_shape (labels_of g vars) y -> Forall2 sf_ok ks fs -> nth_error ks i = Some k ->
  exists fs', sub_step T OP y (fs, acc) i = Ret (fs', o_op OP (val T OP g k (relabel x vars y)) acc) /\ Forall2 sf_ok ks fs'.
Proof.
  intros y i k acc fs ks Hy H2 Ei. destruct (Forall2_nth_l _ _ _ _ _ _ _ H2 Ei) as ([vis f] & Ef & SF). unfold sub_step. cbn [fst snd].
  rewrite (rd_Ret _ _ _ _ Ef). cbn [bind]. destruct SF as (fc & Ek & HB & SF). cbn [fst snd] in *.
  assert (LY : length y = length vars) by (apply in_shape_length in Hy; unfold labels_of in Hy; rewrite map_length in Hy; auto).
  rewrite mapM_rd by (rewrite LY; auto). cbn [bind].
  assert (Lfs : i < length fs) by (apply nth_error_Some; congruence).
  assert (V : val T OP g k (relabel x vars y) = snd fc (at_vars (relabel x vars y) (fst fc))) by (unfold val; rewrite Ek; auto).
  destruct f as [f|v].
  - destruct SF as (S1 & S2 & S3). unfold view_value, fa_call. rewrite at_length, S1, map_length.
    assert (LL : length vis = length (fst fc)).
    { specialize (S3 y Hy). apply (f_equal (@length nat)) in S3. rewrite !at_length in S3. auto. }
    rewrite (proj2 (Nat.eqb_eq _ _) LL). cbn [bind]. rewrite wr_Ret by auto. cbn [bind]. rewrite S2, V, (S3 y Hy).
    eexists. split; [reflexivity|]. rewrite upd_same by auto. auto.
  - destruct SF as (f & fixed & F & OV & S1 & S2 & S3 & S4).
    destruct (vf_call_ok T f fixed v (at_vars y vis) F OV) as (v' & c & E & O' & HC).
    { rewrite at_length, S3, S1, map_length. auto. }
    rewrite E. cbn [bind]. rewrite wr_Ret by auto. cbn [bind]. rewrite S1, map_length in HC.
    rewrite (filled_unique _ _ _ _ _ ltac:(rewrite S1, map_length in F; exact F) HC (S4 y Hy)), S2, V.
    eexists. split; [reflexivity|]. apply Forall2_upd_r with (a := k); auto. exists fc. split; auto. cbn [fst snd]. split; auto. exists f, fixed. repeat (split; auto).
Qed.
Lemma sub_evaluate_ok : forall ks s y, in_shape (labels_of g vars) y -> Forall2 sf_ok ks (s_factors s) ->
  exists s', sub_evaluate T OP s y = Ret (s', big T OP ks (fun k => val T OP g k (relabel x vars y))) /\ s_labels s' = s_labels s /\ Forall2 sf_ok ks (s_factors s').
Proof.
  intros ks s y Hy H2. unfold sub_evaluate. rewrite <- (GmProofs.Forall2_len _ _ _ _ _ H2).
  set (z := relabel x vars y). assert (Lz : labeling g z) by (apply relabel_in_shape; [apply O|auto]).
  assert (G : forall j, j <= length ks -> exists fs, foldM (sub_step T OP y) (seq 0 j) (s_factors s, o_neutral OP) =
     Ret (fs, fold_left (fun acc k => o_op OP (val T OP g k z) acc) (firstn j ks) (o_neutral OP)) /\ Forall2 sf_ok ks fs).
  { induction j as [|j IH]; intros Hj; [exists (s_factors s); split; auto|]. destruct IH as (fs & E & H); [lia|].
    rewrite seq_S, foldM_app, E. cbn [bind foldM]. rewrite Nat.add_0_l. destruct (nth_error ks j) as [k|] eqn:Ek; [|apply nth_error_None in Ek; lia].
    destruct (sub_step_ok y j k (fold_left (fun acc k => o_op OP (val T OP g k z) acc) (firstn j ks) (o_neutral OP)) fs ks Hy H Ek) as (fs' & E' & H').
    rewrite E'. cbn [bind]. exists fs'. split; auto. f_equal. f_equal.
    assert (FS : firstn (S j) ks = firstn j ks ++ [k]). { apply nth_error_split in Ek. destruct Ek as (a & b & -> & <-). rewrite !firstn_app, Nat.sub_diag, firstn_all. replace (S (length a) - length a) with 1 by lia. rewrite firstn_all2 by lia. cbn. rewrite app_nil_r. auto. }
    rewrite FS, fold_left_app. reflexivity. }
  destruct (G (length ks) (le_n _)) as (fs & E & H). rewrite E. cbn [bind]. rewrite firstn_all.
  rewrite (big_fold_left T OP fin OL).
  - rewrite (op_unit_r T OP fin OL). { eexists. split; [reflexivity|]. auto. } apply (big_fin T OP fin OL). intros. apply (val_fin T OP fin OL); auto.
  - apply (ol_neutral _ _ OL).
  - intros. apply (val_fin T OP fin OL); auto.
Qed.

Lemma sub_total : forall ks y, in_shape (labels_of g vars) y -> NoDup ks -> (forall k, In k ks -> k < length (v_factors g)) ->
  (forall v k, In v vars -> In k (v_adj T g v) -> In k ks) ->
  total OP g (relabel x vars y) = o_op OP (big T OP ks (fun k => val T OP g k (relabel x vars y)))
     (big T OP (filter (fun k => negb (mem k ks)) (seq 0 (length (v_factors g)))) (fun k => val T OP g k x)).
Proof.
  intros ks y Hy ND HB HC. assert (Lz : labeling g (relabel x vars y)) by (apply relabel_in_shape; [apply O|auto]).
  rewrite (total_split T OP fin OL g ks W FG ND HB _ Lz). f_equal. apply rest_agree.
  intros k fc Ek NI v Hv. destruct (in_dec Nat.eq_dec v vars) as [I|I]; [|apply relabel_off; auto].
  exfalso. apply NI. apply (HC v); auto. apply v_adj_spec. eauto.
Qed.
End S.

Section Props.
Variable T : Type.
Variable OP : oper T.
Variable mult : bool.
Variable recompute : T -> bool.
Variable ACC : accum T.
Variable fin : T -> Prop.
Hypothesis OL : op_laws fin OP.
Hypothesis AL : acc_laws fin OP ACC.
Variable g : gmv T.
Hypothesis W : wf_gmv g.
Hypothesis FG : fin_gmv fin g.

(** For a Movemaker after any legal history and any increasing sequence of variables, the sub-model can be built; it has
    the label counts of the variables; and, however often it was evaluated before, its value at labels [y] combined with
    a constant is the value of the full model where the variables have the labels [y] and the others their current
    labels. *)
Theorem C35_submodel : forall fuel start ops vars, rounds g <= fuel -> start_ok T g start -> Forall (mlegal g) ops ->
  StronglySorted lt vars -> Forall (fun v => v < length (v_labels g)) vars ->
  exists m s c, mrun T OP mult recompute ACC g fuel start ops = Ret m /\ sub_build T g m vars = Ret s /\ fin c /\
    s_labels s = labels_of g vars /\
    forall ys, Forall (in_shape (labels_of g vars)) ys -> exists s', foldM (fun s y => r <- sub_evaluate T OP s y ;; Ret (fst r)) ys s = Ret s' /\
    forall y, in_shape (labels_of g vars) y -> exists s'' e, sub_evaluate T OP s' y = Ret (s'', e) /\ fin e /\
      total OP g (relabel (mm_state m) vars y) = o_op OP e c.
Proof.
  intros fuel start ops vars Hf HS HO HV HR. destruct (mrun_ok T OP mult recompute ACC fin OL AL g W FG fuel start ops Hf HS HO) as (m & E & O).
  destruct (sub_build_ok T OP g W m vars O HV HR) as (ks & s & EB & LB & F2 & ND & HC). exists m, s.
  set (rest := filter (fun k => negb (mem k ks)) (seq 0 (length (v_factors g)))). exists (big T OP rest (fun k => val T OP g k (mm_state m))).
  assert (HB : forall k, In k ks -> k < length (v_factors g)).
  { intros k Hk. apply In_nth_error in Hk. destruct Hk as [i Hi]. destruct (Forall2_nth_l _ _ _ _ _ _ _ F2 Hi) as (sf & _ & fc & X & _). apply nth_error_Some. congruence. }
  split; auto. split; auto. split. { apply (big_fin T OP fin OL). intros. apply (val_fin T OP fin OL); auto. apply O. }
  split; auto. intros ys HY. clear EB.
  assert (G : exists s', foldM (fun s y => r <- sub_evaluate T OP s y ;; Ret (fst r)) ys s = Ret s' /\ Forall2 (sf_ok T g m vars) ks (s_factors s')).
  { clear LB. revert s F2. induction HY as [|y ys Hy HY IH]; intros s F2; [exists s; auto|]. cbn [foldM].
    destruct (sub_evaluate_ok T OP fin OL g W FG m vars O ks s y Hy F2) as (s1 & E1 & L1 & F3). rewrite E1. cbn [bind fst]. auto. }
  destruct G as (s' & E' & F3). exists s'. split; auto. intros y Hy.
  destruct (sub_evaluate_ok T OP fin OL g W FG m vars O ks s' y Hy F3) as (s1 & E1 & L1 & F4). exists s1. eexists. split; [exact E1|].
  split; [|apply (sub_total T OP fin OL g W FG m vars O ks y); auto].
  apply (big_fin T OP fin OL). intros. apply (val_fin T OP fin OL); auto. apply relabel_in_shape; [apply O|auto].
Qed.

(** Therefore the labels an exact algorithm proposes are an optimal move. *)
Definition sub_optimal (s : subgm T) (y : list nat) : Prop := in_shape (s_labels s) y /\
  forall y' s1 s2 e e', in_shape (s_labels s) y' -> sub_evaluate T OP s y = Ret (s1, e) -> sub_evaluate T OP s y' = Ret (s2, e') -> a_bop ACC e' e = false.
Theorem C35_propose : forall fuel start ops vars solve, rounds g <= fuel -> start_ok T g start -> Forall (mlegal g) ops ->
  StronglySorted lt vars -> Forall (fun v => v < length (v_labels g)) vars ->
  (forall s, s_labels s = labels_of g vars -> exists y, solve s = Ret y /\ sub_optimal s y) ->
  exists m y, mrun T OP mult recompute ACC g fuel start ops = Ret m /\ proposeMove T g solve m vars = Ret y /\ in_shape (labels_of g vars) y /\
    forall y', in_shape (labels_of g vars) y' ->
      a_bop ACC (total OP g (relabel (mm_state m) vars y')) (total OP g (relabel (mm_state m) vars y)) = false.
Proof.
  intros fuel start ops vars solve Hf HS HO HV HR HSol. destruct (C35_submodel fuel start ops vars Hf HS HO HV HR) as (m & s & c & E & EB & Fc & LB & H).
  destruct (HSol s LB) as (y & Ey & [Hy HO2]). rewrite LB in *. exists m, y. split; auto. unfold proposeMove. rewrite EB. cbn [bind]. split; auto. split; auto.
  intros y' Hy'. destruct (H [] (Forall_nil _)) as (s' & E' & H'). cbn in E'. injection E' as <-.
  destruct (H' y Hy) as (s1 & e & E1 & F1 & T1). destruct (H' y' Hy') as (s2 & e' & E2 & F2 & T2). rewrite T1, T2.
  rewrite (ol_comm _ _ OL e' c), (ol_comm _ _ OL e c) by auto. rewrite (al_mono _ _ _ AL) by auto. eapply HO2; eauto.
Qed.
End Props.
Print Assumptions C35_submodel.
Print Assumptions C35_propose.

(** A case with an inner factor, border factors and a constant: [ex_g] of MovemakerProps. *)
Example C35_case : StronglySorted lt [1; 2] /\ Forall (fun v => v < 3) [1; 2] /\ in_shape (labels_of ex_g [1; 2]) [2; 1] /\
  (m <- mrun ext AdderE false (fun _ => false) MinimizerE ex_g 12 (Some [1; 0; 0]) [] ;; s <- sub_build ext ex_g m [1; 2] ;;
   a <- sub_evaluate ext AdderE s [2; 1] ;; b <- sub_evaluate ext AdderE (fst a) [0; 1] ;;
   Ret (map fst (s_factors s), snd a, total AdderE ex_g [1; 2; 1], snd b, total AdderE ex_g [1; 0; 1]))
  = Ret ([[0]; [0; 1]; [0]; [0; 1]], Fin 4, Fin 8, Fin 6, Fin 10).
Proof.
  split; [repeat constructor|]. split; [repeat constructor|]. split; [repeat constructor|]. vm_compute. reflexivity.
Qed.
