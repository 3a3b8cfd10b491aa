(** C20: the model and the sub-models left after fixing variables. *)
From Verif Require Import Base Values GmView GmViewSpec ShapeSpec ShapeProofs GmProofs GmViewProofs OperationsModel GmViewProps
  UtilModel FunctionViewsModel MovemakerModel MovemakerSpec MovemakerProofs SubmodelModel SubmodelProps
  DpProofs ManipulatorModel ManipulatorSpec ManipulatorRep ManipulatorExpand ManipulatorProofs ManipulatorSubs.
From Coq Require Import Relation_Operators.
#[local] Arguments nth_error : simpl never.

Lemma nth_error_ext : forall A (a b : list A), (forall i, nth_error a i = nth_error b i) -> a = b.
Proof.
  intros A a. induction a as [|x a IH]; intros [|y b] H; auto; try (specialize (H 0); discriminate). specialize (H 0) as H0. injection H0 as ->. f_equal. apply IH. intros i. apply (H (S i)).
Qed.
Lemma Forall2_from_nth : forall A B (P : A -> B -> Prop) l1 l2, length l1 = length l2 ->
  (forall i a b, nth_error l1 i = Some a -> nth_error l2 i = Some b -> P a b) -> Forall2 P l1 l2.
Proof.
  intros A B P l1. induction l1 as [|a l1 IH]; intros [|b l2] L H; try discriminate; constructor.
  - apply (H 0); auto.
  - apply IH; [cbn in L; lia|]. intros i x y Ex Ey. apply (H (S i)); auto.
Qed.
Lemma nth_error_combine : forall A B (l1 : list A) (l2 : list B) i a b, nth_error l1 i = Some a -> nth_error l2 i = Some b -> nth_error (combine l1 l2) i = Some (a, b).
Proof.
  intros A B l1. induction l1 as [|x l1 IH]; intros [|y l2] [|i] a b E1 E2; try discriminate.
  - injection E1 as ->. injection E2 as ->. auto.
  - apply (IH l2 i); auto.
Qed.

Section S.
Variable T : Type.
Variable OP : oper T.
Variable fin : T -> Prop.
Hypothesis OL : op_laws fin OP.
Variable g : gmv T.
Hypothesis W : wf_gmv g.
Hypothesis FG : fin_gmv fin g.
Variable md : mode.
Let n := length (v_labels g).
Let nf := length (v_factors g).

Record inv (s : sstate) (m : man T) : Prop := {
  iv_fix : fixed_by T g (ss_fix s) m;
  iv_lock : a_locked m = ss_locked s;
  iv_tent : a_tent m = if ss_ready s then repeat false nf else [];
  iv_model : ss_model s = true -> ss_locked s = true /\ model_ok T OP g md (ss_fix s) (a_mgm m);
  iv_subs : ss_subs s = true -> ss_locked s = true /\ subs_ok T OP fin g md (ss_fix s) (a_v2s m) (a_subs m) }.

Lemma is_free_upd : forall fx v o u, v < length fx -> is_free (upd fx v o) u = if u =? v then match o with None => true | Some _ => false end else is_free fx u.
Proof.
  intros fx v o u Hv. unfold is_free. destruct (Nat.eqb_spec u v) as [->|N]; [rewrite nth_upd_eq; auto|rewrite nth_upd_neq; auto].
Qed.
Lemma list_eq_nthb : forall (a b : list bool), length a = length b -> (forall i, i < length a -> nth i a false = nth i b false) -> a = b.
Proof. intros. apply nth_ext with (d := false) (d' := false); auto. Qed.
Lemma fix_upd : forall fx v b, v < n -> length fx = n -> upd (map (fun u => negb (is_free fx u)) (seq 0 n)) v b = map (fun u => if u =? v then b else negb (is_free fx u)) (seq 0 n).
Proof.
  intros fx v b Hv L. apply nth_error_ext. intros i. destruct (Nat.eq_dec i v) as [->|N].
  - rewrite nth_error_upd_eq by (rewrite map_length, seq_length; auto). rewrite nth_error_map, (nth_error_nth' _ 0) by (rewrite seq_length; auto). rewrite seq_nth by auto. cbn. rewrite Nat.eqb_refl. auto.
  - rewrite nth_error_upd_neq by auto. rewrite !nth_error_map. destruct (nth_error (seq 0 n) i) as [q|] eqn:E; auto. cbn.
    assert (i < n) by (rewrite <- (seq_length n 0); apply nth_error_Some; congruence). rewrite (nth_error_nth' _ 0), seq_nth in E by (rewrite ?seq_length; auto). injection E as <-.
    rewrite (proj2 (Nat.eqb_neq i v) N). auto.
Qed.

Lemma fixed_by_fix : forall s m v l, inv s m -> v < n -> l < nth v (v_labels g) 0 ->
  fixed_by T g (upd (ss_fix s) v (Some l)) (mkMan (a_locked m) (upd (a_fix m) v true) (upd (a_lab m) v l) (a_tent m) (a_mgm m) (a_subs m) (a_v2s m)).
Proof.
  intros s m v l I Hv Hl. destruct (iv_fix _ _ I) as [L O F LL LB V]. constructor; cbn [a_fix a_lab a_v2s]; auto.
  - rewrite length_upd. auto.
  - intros u k E. destruct (Nat.eq_dec u v) as [->|N]; [rewrite nth_upd_eq in E by (rewrite L; auto); injection E as <-; auto|]. rewrite nth_upd_neq in E by auto. auto.
  - rewrite F. fold n. rewrite fix_upd by auto. apply map_ext_in. intros u _. rewrite is_free_upd by (rewrite L; auto). destruct (u =? v); auto.
  - rewrite length_upd. auto.
  - intros u k E. destruct (Nat.eq_dec u v) as [->|N]; [rewrite nth_upd_eq in * by (rewrite ?L, ?LL; auto); injection E as <-; auto|]. rewrite nth_upd_neq in * by auto. auto.
Qed.
Lemma fixed_by_free : forall s m v, inv s m -> v < n ->
  fixed_by T g (upd (ss_fix s) v None) (mkMan (a_locked m) (upd (a_fix m) v false) (a_lab m) (a_tent m) (a_mgm m) (a_subs m) (a_v2s m)).
Proof.
  intros s m v I Hv. destruct (iv_fix _ _ I) as [L O F LL LB V]. constructor; cbn [a_fix a_lab a_v2s]; auto.
  - rewrite length_upd. auto.
  - intros u k E. destruct (Nat.eq_dec u v) as [->|N]; [rewrite nth_upd_eq in E by (rewrite L; auto); discriminate|]. rewrite nth_upd_neq in E by auto. auto.
  - rewrite F. fold n. rewrite fix_upd by auto. apply map_ext_in. intros u _. rewrite is_free_upd by (rewrite L; auto). destruct (u =? v); auto.
  - intros u k E. destruct (Nat.eq_dec u v) as [->|N]; [rewrite nth_upd_eq in E by (rewrite L; auto); discriminate|]. rewrite nth_upd_neq in E by auto. auto.
Qed.
Lemma nth_none : forall (fx : fixes) v, nth v (map (fun _ : option nat => @None nat) fx) None = None.
Proof. induction fx as [|o fx IH]; intros [|v]; cbn; auto. Qed.
Lemma nth_map_in : forall A B (f : A -> B) l i a b, i < length l -> nth i (map f l) b = f (nth i l a).
Proof. induction l as [|x l IH]; intros i a b H; cbn in H; [lia|]. destruct i; cbn; auto. apply IH. lia. Qed.
Lemma free_loop : forall fx : list bool, foldM (fun fx v => wr fx v false) (seq 0 (length fx)) fx = Ret (map (fun _ => false) fx).
Proof.
  intros fx. assert (G : forall j, j <= length fx -> foldM (fun fx v => wr fx v false) (seq 0 j) fx = Ret (map (fun _ => false) (firstn j fx) ++ skipn j fx)).
  { induction j as [|j IH]; intros Hj; auto. rewrite seq_S, foldM_app, IH by lia. cbn [bind foldM]. rewrite Nat.add_0_l.
    destruct (nth_error fx j) as [b|] eqn:E; [|apply nth_error_None in E; lia]. rewrite (firstn_snoc _ _ _ _ E).
    apply nth_error_split in E. destruct E as (l1 & l2 & -> & <-).
    assert (SK : skipn (S (length l1)) (l1 ++ b :: l2) = l2).
    { rewrite skipn_app. rewrite skipn_all2 by lia. replace (S (length l1) - length l1) with 1 by lia. auto. }
    rewrite SK. clear SK. rewrite firstn_app, firstn_all, Nat.sub_diag. cbn [firstn]. rewrite app_nil_r.
    rewrite skipn_app, skipn_all, Nat.sub_diag. cbn [skipn app].
    rewrite wr_Ret by (rewrite app_length, map_length; cbn; lia). cbn [bind]. f_equal. rewrite map_app, <- app_assoc.
    rewrite <- (map_length (fun _ : bool => false) l1). generalize (map (fun _ : bool => false) l1). intros l. induction l as [|a l IHl]; cbn; [auto|rewrite IHl; auto]. }
  rewrite (G (length fx) (le_n _)), firstn_all, skipn_all, app_nil_r. auto.
Qed.
Lemma fixed_by_none : forall s m lk tn mg ss, inv s m ->
  fixed_by T g (map (fun _ => None) (ss_fix s)) (mkMan lk (map (fun _ => false) (a_fix m)) (a_lab m) tn mg ss (a_v2s m)).
Proof.
  intros s m lk tn mg ss I. destruct (iv_fix _ _ I) as [L O F LL LB V]. constructor; cbn [a_fix a_lab a_v2s]; auto.
  - rewrite map_length. auto.
  - intros u k E. rewrite nth_none in E. discriminate.
  - rewrite F, map_map. apply map_ext_in. intros u _. unfold is_free. rewrite nth_none. auto.
  - intros u k E. rewrite nth_none in E. discriminate.
Qed.

Lemma restr_exists : forall fx vars y, length fx = n -> NoDup vars -> (forall v, In v vars -> v < n /\ is_free fx v = true) -> length y = length vars ->
  exists z, restr fx vars y z.
Proof.
  intros fx vars y L ND HV LY. exists (relabel (z0 fx) vars y).
  assert (LZ : length (z0 fx) = n) by (unfold z0; rewrite map_length; auto). split.
  - apply extends_intro; [rewrite relabel_length; lia|]. intros v l E. rewrite relabel_off; [apply (extends_nth fx); auto; apply z0_extends|].
    intros X. destruct (HV v X) as [_ F]. unfold is_free in F. rewrite E in F. discriminate.
  - apply relabel_at; auto. apply Forall_forall. intros v Hv. rewrite LZ. apply HV. auto.
Qed.
Lemma fv_restr : forall fx y, length fx = n -> in_shape (labels_of g (free_vars fx)) y -> exists z, restr fx (free_vars fx) y z.
Proof.
  intros fx y L HY. apply restr_exists; auto.
  - apply NoDup_filter, seq_NoDup.
  - intros v Hv. apply free_vars_In in Hv. rewrite L in Hv. auto.
  - apply in_shape_length in HY. rewrite labels_of_length in HY. auto.
Qed.
Lemma vo_restr : forall fx v2s i y, length fx = n -> in_shape (labels_of g (vars_of fx v2s i)) y -> exists z, restr fx (vars_of fx v2s i) y z.
Proof.
  intros fx v2s i y L HY. apply restr_exists; auto.
  - apply NoDup_filter, NoDup_filter, seq_NoDup.
  - intros v Hv. apply vars_of_In in Hv. rewrite L in Hv. tauto.
  - apply in_shape_length in HY. rewrite labels_of_length in HY. auto.
Qed.

Lemma step_ok : forall s m o, inv s m -> man_legal g s m o -> exists m', mstep T OP g md m o = Ret m' /\ inv (sstep s o) m'.
Proof.
  intros s m o I LG. pose proof I as [IF IL IT IM IS]. destruct o as [v l|v| | | | | |y|i y]; cbn [mstep sstep man_legal] in *.
  - destruct LG as [Hv Hl]. unfold fixVariable. rewrite IL. destruct (ss_locked s) eqn:LK; [exists m; auto|].
    rewrite wr_Ret by (rewrite (fb_fix _ _ _ _ IF), map_length, seq_length; auto). cbn [bind]. rewrite wr_Ret by (rewrite (fb_lablen _ _ _ _ IF); auto). cbn [bind].
    eexists. split; [reflexivity|]. constructor; cbn [ss_fix ss_locked ss_ready ss_model ss_subs a_locked a_tent a_mgm a_subs a_v2s]; auto.
    + pose proof (fixed_by_fix s m v l I Hv Hl) as X. rewrite IL in X. exact X.
    + intros X. destruct (IM X). discriminate.
    + intros X. destruct (IS X). discriminate.
  - unfold freeVariable. rewrite IL. destruct (ss_locked s) eqn:LK; [exists m; auto|].
    rewrite wr_Ret by (rewrite (fb_fix _ _ _ _ IF), map_length, seq_length; auto). cbn [bind].
    eexists. split; [reflexivity|]. constructor; cbn [ss_fix ss_locked ss_ready ss_model ss_subs a_locked a_tent a_mgm a_subs a_v2s]; auto.
    + pose proof (fixed_by_free s m v I LG) as X. rewrite IL in X. exact X.
    + intros X. destruct (IM X). discriminate.
    + intros X. destruct (IS X). discriminate.
  - unfold freeAllVariables. rewrite IL. destruct (ss_locked s) eqn:LK; [exists m; auto|]. rewrite free_loop. cbn [bind].
    eexists. split; [reflexivity|]. constructor; cbn [ss_fix ss_locked ss_ready ss_model ss_subs a_locked a_tent a_mgm a_subs a_v2s]; auto.
    + apply fixed_by_none; auto.
    + intros X. destruct (IM X). discriminate.
    + intros X. destruct (IS X). discriminate.
  - unfold lock. eexists. split; [reflexivity|]. constructor; cbn [ss_fix ss_locked ss_ready ss_model ss_subs a_locked a_tent a_mgm a_subs a_v2s]; auto.
    + destruct IF; constructor; auto.
    + fold nf. rewrite IT. destruct (ss_ready s).
      * rewrite repeat_length, Nat.sub_diag. cbn [repeat]. rewrite app_nil_r. rewrite <- (repeat_length false nf) at 1. apply firstn_all.
      * rewrite firstn_nil. cbn [length app]. rewrite Nat.sub_0_r. auto.
    + intros X. split; auto. apply IM; auto.
    + intros X. split; auto. apply IS; auto.
  - unfold unlock, freeAllVariables. cbn [a_locked a_fix]. rewrite free_loop. cbn [bind a_locked a_fix a_lab a_tent a_mgm a_subs a_v2s]. eexists. split; [reflexivity|].
    constructor; cbn [ss_fix ss_locked ss_ready ss_model ss_subs a_locked a_tent a_mgm a_subs a_v2s]; auto; try discriminate. apply fixed_by_none; auto.
  - rewrite LG in IT. destruct (build_ok T OP fin OL g W FG md (ss_fix s) m IF IT) as (b & E & M). rewrite E. eexists. split; [reflexivity|].
    constructor; cbn [ss_fix ss_locked ss_ready ss_model ss_subs a_locked a_tent a_mgm a_subs a_v2s]; auto; [destruct IF; constructor; auto|rewrite LG; auto|].
    intros X. split; auto. apply IS; auto.
  - rewrite LG in IT. destruct (buildsub_ok T OP fin OL g W FG md (ss_fix s) m IF IT) as (ss & v2s & E & LV & M). rewrite E. eexists. split; [reflexivity|].
    constructor; cbn [ss_fix ss_locked ss_ready ss_model ss_subs a_locked a_tent a_mgm a_subs a_v2s]; auto; [destruct IF; constructor; auto|rewrite LG; auto|].
    intros X. split; auto. apply IM; auto.
  - destruct LG as [MM HY]. destruct (IM MM) as [LK (LB & rs & H2 & SEM)]. rewrite LB in HY. destruct (fv_restr _ _ (fb_len _ _ _ _ IF) HY) as (z & RZ).
    destruct (rep_evaluate T OP g (ss_fix s) (free_vars (ss_fix s)) rs (a_mgm m) y z RZ H2) as (s' & E & E2 & E3). rewrite E. cbn [bind fst]. eexists. split; [reflexivity|].
    constructor; cbn [a_locked a_tent a_mgm a_subs a_v2s]; auto; [destruct IF; constructor; auto|]. intros _. split; auto. split; [congruence|]. exists rs. auto.
  - destruct LG as [MM (b & Eb & HY)]. destruct (IS MM) as [LK (CO & rs & HI & FI & SEM)]. destruct (HI i b Eb) as [LB H2]. rewrite LB in HY.
    rewrite (rd_Ret _ _ _ _ Eb). cbn [bind]. destruct (vo_restr _ _ _ _ (fb_len _ _ _ _ IF) HY) as (z & RZ).
    destruct (rep_evaluate T OP g (ss_fix s) _ (rs i) b y z RZ H2) as (b' & E & E2 & E3). rewrite E. cbn [bind fst]. assert (Hi : i < length (a_subs m)) by (apply nth_error_Some; congruence).
    rewrite wr_Ret by auto. cbn [bind]. eexists. split; [reflexivity|]. constructor; cbn [a_locked a_tent a_mgm a_subs a_v2s]; auto; [destruct IF; constructor; auto|].
    intros _. split; auto. split; [rewrite length_upd; auto|]. exists rs. split; [|split; auto; rewrite length_upd; auto].
    intros q bq Eq. destruct (Nat.eq_dec q i) as [->|N]; [rewrite nth_error_upd_eq in Eq by auto; injection Eq as <-; split; [congruence|auto]|]. rewrite nth_error_upd_neq in Eq by auto. auto.
Qed.
Lemma init_ok : inv (s_new n) (man_new T g).
Proof.
  unfold s_new, man_new. constructor; cbn [ss_fix ss_locked ss_ready ss_model ss_subs a_locked a_tent a_mgm a_subs a_v2s]; auto; try discriminate.
  assert (NN : forall v, nth v (repeat (@None nat) n) None = None) by (intros; apply nth_repeat).
  constructor; cbn [a_fix a_lab a_v2s]; try apply repeat_length.
  - intros v l E. rewrite NN in E. discriminate.
  - unfold is_free. fold n. clear - NN. rewrite <- (seq_length n 0) at 1. generalize (seq 0 n). intros l. induction l as [|a l IH]; auto. cbn. rewrite NN. cbn. f_equal. auto.
  - intros v l E. rewrite NN in E. discriminate.
Qed.
Lemma run_ok : forall ops s m, inv s m -> man_legal_run g OP md s m ops -> exists m', foldM (mstep T OP g md) ops m = Ret m' /\ inv (fold_left sstep ops s) m'.
Proof.
  induction ops as [|o ops IH]; intros s m I LG; [exists m; auto|]. destruct LG as [LO LR]. destruct (step_ok s m o I LO) as (m1 & E & I1). cbn [foldM fold_left]. rewrite E. cbn [bind].
  apply IH; auto.
Qed.

(** What a built model and built sub-models are good for. *)
Lemma model_use : forall s m, inv s m -> ss_model s = true ->
  s_labels (a_mgm m) = labels_of g (free_vars (ss_fix s)) /\
  forall y ol, in_shape (labels_of g (free_vars (ss_fix s))) y -> exists z s',
    modifiedState2OriginalState T g m y ol = Ret z /\ labeling g z /\ extends (ss_fix s) z /\ at_vars z (free_vars (ss_fix s)) = y /\
    sub_evaluate T OP (a_mgm m) y = Ret (s', total OP (target g md (ss_fix s)) z).
Proof.
  intros s m [IF IL IT IM IS] MM. destruct (IM MM) as [LK (LB & rs & H2 & SEM)]. split; auto. intros y ol HY.
  destruct (m2o_ok T g (ss_fix s) m y ol IF ltac:(congruence) LB HY) as (z & EZ & RZ & LZ).
  destruct (rep_evaluate T OP g _ _ rs (a_mgm m) y z RZ H2) as (s' & EE & _). exists z, s'. split; auto. split; auto. destruct RZ as [R1 R2]. split; auto. split; auto.
  rewrite EE, SEM; auto.
Qed.
Lemma at_shape : forall z vs, labeling g z -> (forall v, In v vs -> v < n) -> in_shape (labels_of g vs) (at_vars z vs).
Proof.
  intros z vs LZ X. unfold labels_of, at_vars. induction vs as [|v l IH]; cbn [map]; constructor.
  - apply Forall2_nth_lt; auto. apply X. left; auto.
  - apply IH. intros; apply X; right; auto.
Qed.
Lemma same_label : forall vs z z' v, at_vars z vs = at_vars z' vs -> In v vs -> nth v z 0 = nth v z' 0.
Proof.
  intros vs z z' v AV Iv. apply In_nth_error in Iv. destruct Iv as [p Hp].
  assert (HPL : p < length vs) by (apply nth_error_Some; congruence). apply (f_equal (fun l => nth p l 0)) in AV. unfold at_vars in AV. rewrite !(nth_map_in _ _ _ _ _ 0) in AV by auto.
  rewrite (nth_error_nth _ _ 0 Hp) in AV. auto.
Qed.
Lemma model_onto : forall s m z ol, inv s m -> ss_model s = true -> labeling g z -> extends (ss_fix s) z ->
  in_shape (s_labels (a_mgm m)) (at_vars z (free_vars (ss_fix s))) /\ modifiedState2OriginalState T g m (at_vars z (free_vars (ss_fix s))) ol = Ret z.
Proof.
  intros s m z ol I MM LZ HX. destruct (model_use s m I MM) as [LB H']. set (fx := ss_fix s) in *.
  assert (LF : length fx = n) by (rewrite <- (extends_length _ _ HX); apply (labeling_length T g); auto).
  assert (IS : in_shape (labels_of g (free_vars fx)) (at_vars z (free_vars fx))) by (apply at_shape; auto; intros v Hv; apply free_vars_In in Hv; lia).
  split; [rewrite LB; auto|]. destruct (H' _ ol IS) as (z' & s' & EZ & LZ' & HX' & AV & _). rewrite EZ. f_equal. apply list_eq_nth.
  - rewrite (labeling_length T g z), (labeling_length T g z'); auto.
  - intros v Hv. rewrite (labeling_length T g z') in Hv by auto. destruct (is_free fx v) eqn:F.
    + apply (same_label (free_vars fx)); auto. apply free_vars_In; split; auto; lia.
    + destruct (not_free _ _ F) as (l & El). rewrite (extends_nth _ _ _ _ HX El), (extends_nth _ _ _ _ HX' El). auto.
Qed.
Lemma subs_use : forall s m, inv s m -> ss_subs s = true ->
  let fx := ss_fix s in
  let comp v := nth v (a_v2s m) 0 in
  let group i := filter (fun v => comp v =? i) (free_vars fx) in
  let K := length (a_subs m) in
  0 < K /\ (forall v, In v (free_vars fx) -> comp v < K) /\
  (forall i, i < K -> group i <> [] \/ free_vars fx = [] /\ K = 1) /\
  (forall u v, In u (free_vars fx) -> In v (free_vars fx) -> (comp u = comp v <-> joined g fx u v)) /\
  map s_labels (a_subs m) = map (fun i => labels_of g (group i)) (seq 0 K) /\
  forall ys conf, Forall2 (fun s y => in_shape (s_labels s) y) (a_subs m) ys -> exists z es,
    modifiedSubStates2OriginalState T g m ys conf = Ret z /\ labeling g z /\ extends fx z /\
    map (fun i => at_vars z (group i)) (seq 0 K) = ys /\
    Forall2 (fun sy e => exists s', sub_evaluate T OP (fst sy) (snd sy) = Ret (s', e)) (combine (a_subs m) ys) es /\ Forall fin es /\
    fold_left (fun acc e => o_op OP e acc) es (o_neutral OP) = total OP (target g md fx) z.
Proof.
  intros st m I MM. destruct I as [IF IL IT IM IS]. destruct (IS MM) as [LK (CO & rs & HI & FI & SEM)]. cbn zeta. set (fx := ss_fix st) in *. pose proof (fb_len _ _ _ _ IF) as LF. set (K := length (a_subs m)) in *.
  assert (FVI : forall v, In v (free_vars fx) -> v < n /\ is_free fx v = true) by (intros v Hv; apply free_vars_In in Hv; rewrite LF in Hv; auto).
  fold (vars_of fx (a_v2s m)).
  split; [apply CO|]. split; [intros v Hv; destruct (FVI v Hv); apply CO; auto|]. split; [|split; [|split]].
  - intros i Hi. destruct (co_surj _ _ _ _ _ CO i Hi) as [(v & Hv & Fv & Ev)|X]; auto. left. intros X.
    assert (Y : In v (vars_of fx (a_v2s m) i)) by (apply vars_of_In; split; auto; split; auto; unfold n in *; lia). change (vars_of fx (a_v2s m) i = []) in X; rewrite X in Y; destruct Y.
  - intros u v Hu Hv. destruct (FVI u Hu), (FVI v Hv). apply CO; auto.
  - apply nth_error_ext. intros i. rewrite !nth_error_map. destruct (nth_error (a_subs m) i) as [s|] eqn:Es.
    + assert (Hi : i < K) by (apply nth_error_Some; congruence). rewrite (nth_error_nth' _ 0), seq_nth by (rewrite ?seq_length; auto). cbn. f_equal. apply HI. auto.
    + apply nth_error_None in Es. replace (nth_error (seq 0 K) i) with (@None nat); auto. symmetry. apply nth_error_None. rewrite seq_length. auto.
  - intros ys conf HY. assert (LY : length ys = K) by (symmetry; exact (GmProofs.Forall2_len _ _ _ _ _ HY)).
    assert (HS : forall i s y, nth_error (a_subs m) i = Some s -> nth_error ys i = Some y -> in_shape (labels_of g (vars_of fx (a_v2s m) i)) y).
    { intros i s y Es Ey. destruct (Forall2_nth_l _ _ _ _ _ _ _ HY Es) as (y' & Ey' & X). rewrite Ey in Ey'. injection Ey' as <-. destruct (HI i s Es) as [L _]. rewrite <- L. auto. }
    destruct (s2o_ok T g fx m ys conf IF CO LY) as (z & EZ & HX & LZ & AV).
    { intros i y Ey. destruct (nth_error (a_subs m) i) as [s|] eqn:Es; [eapply HS; eauto|]. apply nth_error_None in Es. assert (i < length ys) by (apply nth_error_Some; congruence). fold K in Es. lia. }
    exists z, (map (fun i => rfold T OP g (rs i) z) (seq 0 K)). split; auto. split; auto. split; auto. split; [|split; [|split]].
    + apply nth_error_ext. intros i. rewrite nth_error_map. destruct (nth_error ys i) as [y|] eqn:Ey.
      * assert (Hi : i < K) by (rewrite <- LY; apply nth_error_Some; congruence). rewrite (nth_error_nth' _ 0), seq_nth by (rewrite ?seq_length; auto). cbn [option_map]. f_equal. apply AV. auto.
      * apply nth_error_None in Ey. replace (nth_error (seq 0 K) i) with (@None nat); auto. symmetry. apply nth_error_None. rewrite seq_length. lia.
    + apply Forall2_from_nth.
      * rewrite combine_length, map_length, seq_length, LY. fold K. lia.
      * intros i sy e E1 E2. rewrite nth_error_map in E2. destruct (nth_error (seq 0 K) i) as [q|] eqn:Eq; [|discriminate]. cbn in E2. injection E2 as <-.
        assert (Hi : i < K) by (rewrite <- (seq_length K 0); apply nth_error_Some; congruence). rewrite (nth_error_nth' _ 0), seq_nth in Eq by (rewrite ?seq_length; auto). injection Eq as <-. cbn [Nat.add].
        destruct (nth_error (a_subs m) i) as [s|] eqn:Es; [|apply nth_error_None in Es; fold K in Es; lia]. destruct (nth_error ys i) as [y|] eqn:Ey; [|apply nth_error_None in Ey; lia].
        rewrite (nth_error_combine _ _ _ _ i s y) in E1 by auto. injection E1 as <-. cbn [fst snd]. destruct (HI i s Es) as [L2 H2].
        destruct (rep_evaluate T OP g fx _ (rs i) s y z (conj HX (AV i y Ey)) H2) as (s' & EE & _). exists s'. auto.
    + apply Forall_forall. intros e He. apply in_map_iff in He. destruct He as (i & <- & _). auto.
    + rewrite <- SEM by auto. fold K. clear - OL FI LZ. rewrite <- (op_unit_r T OP fin OL (big T OP (seq 0 K) _)) by (apply (big_fin T OP fin OL); auto).
      rewrite <- (big_fold_left T OP fin OL (seq 0 K) (fun i => rfold T OP g (rs i) z) (o_neutral OP)); auto; [|apply (ol_neutral _ _ OL)].
      generalize (o_neutral OP). induction (seq 0 K) as [|i l IH]; intros acc; auto. cbn. apply IH.
Qed.
(** Any labeling with the fixed labels comes from labelings of the sub-models. *)
Lemma subs_onto : forall s m z conf, inv s m -> ss_subs s = true -> labeling g z -> extends (ss_fix s) z -> exists ys,
  Forall2 (fun s y => in_shape (s_labels s) y) (a_subs m) ys /\ modifiedSubStates2OriginalState T g m ys conf = Ret z.
Proof.
  intros s m z conf I MM LZ HX. destruct (subs_use s m I MM) as (KP & CL & _ & _ & SH & H). cbv zeta in *. set (fx := ss_fix s) in *. set (comp := fun v => nth v (a_v2s m) 0) in *. set (K := length (a_subs m)) in *.
  change (map s_labels (a_subs m) = map (fun i => labels_of g (filter (fun v => comp v =? i) (free_vars fx))) (seq 0 K)) in SH.
  assert (LF : length fx = n) by (rewrite <- (extends_length _ _ HX); apply (labeling_length T g); auto).
  set (ys := map (fun i => at_vars z (filter (fun v => comp v =? i) (free_vars fx))) (seq 0 K)).
  assert (HY : Forall2 (fun s y => in_shape (s_labels s) y) (a_subs m) ys).
  { apply Forall2_from_nth; [unfold ys; rewrite map_length, seq_length; auto|]. intros i b y Eb Ey. unfold ys in Ey. rewrite nth_error_map in Ey. destruct (nth_error (seq 0 K) i) as [q|] eqn:Eq; [|discriminate]. injection Ey as <-.
    assert (X : nth_error (map s_labels (a_subs m)) i = Some (s_labels b)) by (rewrite nth_error_map, Eb; auto). rewrite SH, nth_error_map, Eq in X. injection X as <-. apply at_shape; auto. intros v Hv. apply filter_In in Hv. destruct Hv as [Hv _]. apply free_vars_In in Hv. lia. }
  exists ys. split; auto. destruct (H ys conf HY) as (z' & es & EZ & LZ' & HX' & AV & _). rewrite EZ. f_equal. apply list_eq_nth.
  - rewrite (labeling_length T g z), (labeling_length T g z'); auto.
  - intros v Hv. rewrite (labeling_length T g z') in Hv by auto. destruct (is_free fx v) eqn:F.
    + assert (Iv : In v (free_vars fx)) by (apply free_vars_In; split; auto; lia). apply (same_label (filter (fun u => comp u =? comp v) (free_vars fx))); [|apply filter_In; split; auto; apply Nat.eqb_refl].
      apply (f_equal (fun l => nth (comp v) l [])) in AV. unfold ys in AV. specialize (CL v Iv). fold (comp v) in CL. rewrite !(nth_map_in _ _ _ _ _ 0) in AV by (rewrite seq_length; auto). rewrite seq_nth in AV by auto. exact AV.
    + destruct (not_free _ _ F) as (l & El). rewrite (extends_nth _ _ _ _ HX El), (extends_nth _ _ _ _ HX' El). auto.
Qed.

(** The run of a history of calls on a new manipulator, and the state a user expects after it. *)
Definition man_run (ops : list manop) : outcome (man T) := foldM (mstep T OP g md) ops (man_new T g).
Definition man_state (ops : list manop) : sstate := fold_left sstep ops (s_new n).
Definition man_legal_ops (ops : list manop) : Prop := man_legal_run g OP md (s_new n) (man_new T g) ops.

(** Every legal history runs; isFixed tells which variables are fixed; and if a model has been built since the last
    unlock(), its variables are the free ones, every labeling [y] of it is translated to the labeling [z] of the original
    model that has the fixed labels and the labels [y], and its value at [y] is the value of [z]. *)
Theorem C20_model : forall ops, man_legal_ops ops -> exists m, man_run ops = Ret m /\
  let fx := ss_fix (man_state ops) in
  (forall v, v < n -> isFixed T m v = Ret (negb (is_free fx v))) /\
  (ss_model (man_state ops) = true ->
    s_labels (a_mgm m) = labels_of g (free_vars fx) /\
    forall y ol, in_shape (labels_of g (free_vars fx)) y -> exists z s',
      modifiedState2OriginalState T g m y ol = Ret z /\ labeling g z /\ extends fx z /\ at_vars z (free_vars fx) = y /\
      sub_evaluate T OP (a_mgm m) y = Ret (s', total OP (target g md fx) z)).
Proof.
  intros ops LG. destruct (run_ok ops _ _ init_ok LG) as (m & E & I). exists m. split; auto. cbn zeta. fold (man_state ops) in I.
  split. { intros v Hv. unfold isFixed. apply (rd_f T g _ m (iv_fix _ _ I)); auto. }
  intros MM. apply (model_use _ _ I MM).
Qed.

(** Every labeling of the original model with the fixed labels is the translation of a labeling of the modified model. *)
Theorem C20_model_onto : forall ops m z ol, man_legal_ops ops -> man_run ops = Ret m -> ss_model (man_state ops) = true ->
  let fx := ss_fix (man_state ops) in labeling g z -> extends fx z ->
  in_shape (s_labels (a_mgm m)) (at_vars z (free_vars fx)) /\ modifiedState2OriginalState T g m (at_vars z (free_vars fx)) ol = Ret z.
Proof.
  intros ops m z ol LG EM MM fx LZ HX. destruct (run_ok ops _ _ init_ok LG) as (m' & E & I). unfold man_run in EM. rewrite EM in E. injection E as <-. apply (model_onto _ _ z ol I MM LZ HX).
Qed.

(** If sub-models have been built since the last unlock(), there is one for each group of free variables that are joined
    by factors (one without variables, if no variable is free), its variables are those of the group; labelings [ys] of
    all sub-models are translated to the labeling [z] of the original model that has the fixed labels and the labels [ys],
    and the values of the sub-models at [ys] combine to the value of [z]. *)
Theorem C20_submodels : forall ops, man_legal_ops ops -> ss_subs (man_state ops) = true -> exists m comp, man_run ops = Ret m /\
  let fx := ss_fix (man_state ops) in
  let group i := filter (fun v => comp v =? i) (free_vars fx) in
  let K := length (a_subs m) in
  0 < K /\ (forall v, In v (free_vars fx) -> comp v < K) /\
  (forall i, i < K -> group i <> [] \/ free_vars fx = [] /\ K = 1) /\
  (forall u v, In u (free_vars fx) -> In v (free_vars fx) -> (comp u = comp v <-> joined g fx u v)) /\
  map s_labels (a_subs m) = map (fun i => labels_of g (group i)) (seq 0 K) /\
  forall ys conf, Forall2 (fun s y => in_shape (s_labels s) y) (a_subs m) ys -> exists z es,
    modifiedSubStates2OriginalState T g m ys conf = Ret z /\ labeling g z /\ extends fx z /\
    map (fun i => at_vars z (group i)) (seq 0 K) = ys /\
    Forall2 (fun sy e => exists s', sub_evaluate T OP (fst sy) (snd sy) = Ret (s', e)) (combine (a_subs m) ys) es /\
    fold_left (fun acc e => o_op OP e acc) es (o_neutral OP) = total OP (target g md fx) z.
Proof.
  intros ops LG MM. destruct (run_ok ops _ _ init_ok LG) as (m & E & I). fold (man_state ops) in I. exists m, (fun v => nth v (a_v2s m) 0). split; auto.
  destruct (subs_use _ _ I MM) as (A & B & C & D & F & G). cbv zeta in *. split; auto. split; auto. split; auto. split; auto. split; auto.
  intros ys conf HY. destruct (G ys conf HY) as (z & es & G1 & G2 & G3 & G4 & G5 & _ & G6). exists z, es. auto 10.
Qed.
End S.

(** A chain of five variables whose middle variable is fixed: the model splits into two parts. *)
Definition man_ex : gmv ext := mkGmv [2; 2; 3; 2; 2]
  [ ([0], fun l => Fin (Z.of_nat (nth 0 l 0))); ([0; 1], fun l => Fin (3 * Z.of_nat (nth 0 l 0) + Z.of_nat (nth 1 l 0)));
    ([1; 2], fun l => Fin (5 * Z.of_nat (nth 0 l 0) + 10 * Z.of_nat (nth 1 l 0))); ([2], fun l => Fin (100 * Z.of_nat (nth 0 l 0)));
    ([2; 3], fun l => Fin (7 * Z.of_nat (nth 0 l 0) * Z.of_nat (nth 1 l 0))); ([3; 4], fun l => Fin (1 - Z.of_nat (nth 0 l 0) * Z.of_nat (nth 1 l 0)));
    ([], fun _ => Fin 1000) ].
Definition man_ops : list manop := [OFix 0 1; OFix 2 1; OFix 2 2; OFree 0; OLock; OFix 1 1; OBuild; OBuildSub; OEval [1; 1; 0; 1]; OEvalSub 1 [1; 0]].
Definition man_ops2 : list manop := man_ops ++ [OUnlock; OFix 0 0; OFix 3 1; OFix 1 1; OLock; OBuildSub; OBuild].
Ltac legal := repeat (split; [try (first [exact I|reflexivity|cbn; lia|solve [split; [reflexivity|repeat constructor]]|solve [split; [reflexivity|eexists; split; [reflexivity|repeat constructor]]]])
  | let m' := fresh "m" in let E := fresh "E" in intros m' E; vm_compute in E; injection E as <-]); try exact I.
Example C20_case : wf_gmv man_ex /\ fin_gmv finite man_ex /\
  man_legal_ops ext AdderE man_ex FIX man_ops2 /\ man_legal_ops ext AdderE man_ex DROP man_ops2 /\
  ss_model (man_state ext man_ex man_ops) = true /\ ss_subs (man_state ext man_ex man_ops) = true /\ ss_fix (man_state ext man_ex man_ops) = [None; None; Some 2; None; None] /\
  ss_fix (man_state ext man_ex man_ops2) = [Some 0; Some 1; None; Some 1; None].
Proof.
  split; [split; cbn; repeat constructor; cbn; lia|]. split; [unfold fin_gmv, man_ex; cbn [v_factors]; repeat (apply Forall_cons; [intros; eexists; reflexivity|]); apply Forall_nil|].
  split; [unfold man_legal_ops, man_ops2, man_ops; cbn [app man_legal_run]; legal|].
  split; [unfold man_legal_ops, man_ops2, man_ops; cbn [app man_legal_run]; legal|].
  vm_compute. repeat split.
Qed.
Example C20_case_values : forall md, md = FIX \/ md = DROP ->
  (m <- man_run ext AdderE man_ex md man_ops ;; z <- modifiedState2OriginalState ext man_ex m [1; 1; 1; 1] [0; 0; 0; 0; 0] ;;
   e <- sub_evaluate ext AdderE (a_mgm m) [1; 1; 1; 1] ;;
   z2 <- modifiedSubStates2OriginalState ext man_ex m [[1; 0]; [1; 1]] [0; 0; 0; 0; 0] ;;
   es <- mapM (fun p => r <- sub_evaluate ext AdderE (fst p) (snd p) ;; Ret (snd r)) (combine (a_subs m) [[1; 0]; [1; 1]]) ;;
   Ret (z, snd e, total AdderE (target man_ex md [None; None; Some 2; None; None]) z, z2, es, total AdderE (target man_ex md [None; None; Some 2; None; None]) z2))
  = Ret match md with
        | FIX => ([1; 1; 2; 1; 1], Fin 1244, Fin 1244, [1; 0; 2; 1; 1], [Fin 1224; Fin 14], Fin 1238)
        | DROP => ([1; 1; 2; 1; 1], Fin 1005, Fin 1005, [1; 0; 2; 1; 1], [Fin 1004; Fin 0], Fin 1004)
        end.
Proof. intros md [-> | ->]; vm_compute; reflexivity. Qed.

(** Without a call of lock() the builders read behind an empty vector, although they lock the manipulator themselves. *)
Theorem C20_unlocked_refuted : exists g : gmv ext, wf_gmv g /\ fin_gmv finite g /\ forall md, md = FIX \/ md = DROP ->
  man_run ext AdderE g md [OFix 2 1; OBuild] = Undef /\ man_run ext AdderE g md [OFix 2 1; OBuildSub] = Undef /\
  exists m, man_run ext AdderE g md [OFix 2 1; OLock; OBuild; OBuildSub] = Ret m.
Proof.
  exists man_ex. split; [apply C20_case|]. split; [apply C20_case|]. intros md [-> | ->]; (split; [vm_compute; reflexivity|split; [vm_compute; reflexivity|]]).
  - eexists. vm_compute. reflexivity.
  - eexists. vm_compute. reflexivity.
Qed.

Print Assumptions C20_model.
Print Assumptions C20_model_onto.
Print Assumptions C20_submodels.
Print Assumptions C20_unlocked_refuted.
