(** Proofs about dual decomposition: iterations and histories. *)
From Coq Require Import ZArith QArith Qcanon Sorted.
From Verif Require Import Base Values GmView GmViewSpec GmViewProofs ShapeSpec ShapeProofs UtilModel ConstraintModel ConstraintSpec ConstraintProofs ConstraintCounts MpModel DecompModel DecompSpec DecompProofs DecompReorder DecompBuild DualDecompModel DualDecompSpec DualDecompProofs DualDecompInv DualDecompStep DualDecompBounds.
Open Scope nat_scope.

(** ** Orders *)
Lemma bounds_refl : forall mx a, bounds mx a a. Proof. intros [] a; apply Qcle_refl. Qed.
Lemma bounds_trans : forall mx a b c, bounds mx a b -> bounds mx b c -> bounds mx a c.
Proof. intros [] a b c H1 H2; cbn in *; [apply (Qcle_trans _ b)|apply (Qcle_trans _ b)]; auto. Qed.
Lemma better_true : forall mx a b, better mx a b = true -> bounds mx a b.
Proof. intros [] a b H; unfold better in H; apply Qc_lt_true in H; apply Qclt_le_weak; auto. Qed.
Lemma better_false : forall mx a b, better mx a b = false -> bounds mx b a.
Proof. intros [] a b H; unfold better in H; apply Qc_lt_false in H; auto. Qed.
Lemma bounds_opp : forall mx a b, bounds mx a b -> bounds mx (- b) (- a).
Proof. intros [] a b H; cbn in *; apply Qcopp_le_compat; auto. Qed.
Lemma bounds_antisym : forall mx a b, bounds mx a b -> bounds mx b a -> a = b.
Proof. intros [] a b H1 H2; cbn in *; apply Qcle_antisym; auto. Qed.
Lemma bounds_sum : forall A mx (f g : A -> Qc) l, (forall a, In a l -> bounds mx (f a) (g a)) -> bounds mx (qsum f l) (qsum g l).
Proof. intros A [] f g l H; apply qsum_le; auto. Qed.

(** ** Accumulation of values *)
Lemma feed_value : forall mx a v z, (acc_value a = None /\ feed mx a (Some v) z = mkAcc (Some v) z) \/
  exists u, acc_value a = Some u /\ ((bounds mx v u /\ feed mx a (Some v) z = mkAcc (Some v) z) \/ (bounds mx u v /\ feed mx a (Some v) z = a)).
Proof.
  intros mx [[u|] s] v z; unfold feed, acc_feed; cbn [acc_value acc_state obop oop3]; [right|left; auto]. exists u. split; auto. unfold oop3. cbn [obop]. destruct (better mx v u) eqn:E; [left|right]; split; auto.
  - apply better_true. auto. - apply better_false. auto.
Qed.

Section Run.
Variable gm : gmv Qc.
Hypothesis WF : wf_gmv gm.
Notation nv := (length (v_labels gm)).
Notation fs := (map fst (v_factors gm)).
Variable d : dec.
Hypothesis DC : decomposes nv fs d.
Hypothesis OR : ordered d.
Hypothesis NM : 0 < d_nm d.
Hypothesis CF : forall f, f < length (v_factors gm) -> nth f (d_fl d) [] <> [].

(** ** Labelings that are tried *)
Lemma elected_unique : forall states z z', elected gm d states z -> elected gm d states z' -> z = z'.
Proof.
  intros states z z' [L1 H1] [L2 H2]. apply (nth_ext _ _ 0 0); [lia|]. intros v Hv. rewrite L1 in Hv. specialize (H1 v Hv). specialize (H2 v Hv).
  destruct H1 as [[E1 ->]|[P1 M1]]; destruct H2 as [[E2 ->]|[P2 M2]]; auto.
  - unfold votes in P2. rewrite E1 in P2. cbn in P2. lia.
  - unfold votes in P1. rewrite E2 in P1. cbn in P1. lia.
  - destruct (M1 (nth v z' 0)) as [A1 A2]. destruct (M2 (nth v z 0)) as [B1 B2]. assert (nth v z 0 <= nth v z' 0) by (apply A2; lia). assert (nth v z' 0 <= nth v z 0) by (apply B2; lia). lia.
Qed.
Lemma overlays_unique : forall m y def z z', overlays d m y def z -> overlays d m y def z' -> z = z'.
Proof.
  intros m y def z z' [L1 H1] [L2 H2]. apply (nth_ext _ _ 0 0); [lia|]. intros v _. destruct (H1 v) as [[k [C1 [M1 E1]]]|[N1 E1]]; destruct (H2 v) as [[k' [C2 [M2 E2]]]|[N2 E2]].
  - assert (k = k') by (specialize (M1 k' C2); specialize (M2 k C1); lia). congruence.
  - destruct (N2 k C1). - destruct (N1 k' C2). - congruence.
Qed.

Lemma filled_ok : forall st states real m def, INV gm d st -> states_ok gm d st states -> filled_with d real (fun v => v) -> m < d_nm d -> labeling gm def ->
  exists z, filled real m (nth m states []) def = Ret z /\ overlays d m (nth m states []) def z /\ labeling gm z.
Proof.
  intros st states real m def I ST [[R1 R2] R3] Hm LD. set (x := nth m states []). destruct ST as [ST1 ST2]. assert (LX : length x = nth m (d_nsv d) 0). { destruct (sub_labels gm d st m I Hm) as [L1 _]. specialize (ST2 m Hm). apply labeling_length in ST2. fold x in ST2. lia. }
  unfold filled. assert (LD' := labeling_length _ _ _ LD).
  destruct (foldM_seq_ind nat (list nat) (fun n z => length z = nv /\ forall v,
    (exists k, k < n /\ copy_of d v m k /\ (forall k', k' < n -> copy_of d v m k' -> k' <= k) /\ nth v z 0 = nth k x 0) \/ ((forall k, k < n -> ~ copy_of d v m k) /\ nth v z 0 = nth v def 0))
    (fun l i => v <- rd2 real m i ;; a <- rd x i ;; wr l v a) (seq 0 (length x)) 0 def) as [z [E [Z1 Z2]]].
  - split; auto. intros v. right. split; auto. intros; lia.
  - intros i a z Hi [Z1 Z2]. apply nth_error_seq0 in Hi. destruct Hi as [-> Hi]. cbn [plus] in *. assert (Hi' : i < nth m (d_nsv d) 0) by lia. destruct (dc_exact _ _ _ DC m i Hm Hi') as [v [C U]]. unfold rd2. rewrite (rd_nth _ real m []) by lia. cbn [bind].
    rewrite (rd_nth _ (nth m real []) i 0) by (rewrite R2; auto). rewrite (R3 v m i C). cbn [bind]. rewrite (rd_nth _ x i 0) by auto. cbn [bind]. destruct (dc_range _ _ _ DC _ _ _ C) as [Hv _]. rewrite wr_Ret by lia. eexists. split; [reflexivity|]. rewrite length_upd. split; auto.
    intros u. rewrite nth_upd by lia. destruct (Nat.eq_dec v u) as [<-|NE]. { left. exists i. split; auto. split; auto. split; auto. intros; lia. }
    assert (NC : ~ copy_of d u m i) by (intros Q; apply NE; apply U; auto). destruct (Z2 u) as [[k [K1 [K2 [K3 K4]]]]|[K1 K2]].
    + left. exists k. split; [lia|]. split; auto. split; auto. intros k' Hk' C'. apply K3; auto. destruct (Nat.eq_dec k' i) as [->|]; [tauto|lia].
    + right. split; auto. intros k Hk C'. destruct (Nat.eq_dec k i) as [->|]; [tauto|]. apply (K1 k); auto. lia.
  - cbn [plus] in *. rewrite seq_length in *. exists z. split; auto. rewrite LX in Z2. split.
    + split; [lia|]. intros v. destruct (Z2 v) as [[k [K1 [K2 [K3 K4]]]]|[K1 K2]]; [left|right].
      * exists k. split; auto. split; auto. intros k' C'. apply K3; auto. apply (dc_range _ _ _ DC _ _ _ C').
      * split; auto. intros k C'. apply (K1 k); auto. apply (dc_range _ _ _ DC _ _ _ C').
    + apply in_shape_nth. split; auto. intros v Hv. destruct (Z2 v) as [[k [K1 [K2 [K3 K4]]]]|[K1 K2]].
      * rewrite K4. apply (states_label gm d DC st states v m k I (conj ST1 ST2) K2).
      * rewrite K2. apply in_shape_nth in LD. apply LD. auto.
Qed.

Lemma full_labeling : forall st states m, INV gm d st -> states_ok gm d st states -> m < d_nm d -> all_variables gm d m -> labeling gm (nth m states []).
Proof.
  intros st states m I ST Hm [A1 A2]. assert (LX : length (nth m states []) = nth m (d_nsv d) 0). { destruct (sub_labels gm d st m I Hm) as [L1 _]. destruct ST as [_ ST2]. specialize (ST2 m Hm). apply labeling_length in ST2. lia. }
  apply in_shape_nth. split; [lia|]. intros v Hv. rewrite <- A1 in Hv. destruct (dc_exact _ _ _ DC m v Hm Hv) as [u [C _]]. assert (v = u) by (apply A2; auto). subst u. apply (states_label gm d DC st states v m v I ST C).
Qed.

(** [S]: the labelings tried so far *)
Definition tried (mx : bool) (SS : list nat -> Prop) (ac : accumulation (option Qc)) : Prop :=
  labeling gm (acc_state ac) /\ SS (acc_state ac) /\ acc_value ac = Some (energy gm (acc_state ac)) /\ forall z, SS z -> bounds mx (energy gm (acc_state ac)) (energy gm z).
Lemma tried_iff : forall mx S1 S2 ac, (forall z, S1 z <-> S2 z) -> tried mx S1 ac -> tried mx S2 ac.
Proof. intros mx S1 S2 ac H [T1 [T2 [T3 T4]]]. split; auto. split. { apply H. auto. } split; auto. intros z Z. apply T4. apply H. auto. Qed.
Lemma candidate_first : forall mx z, labeling gm z -> exists ac, candidate gm mx (acc_init (option Qc) None) z = Ret ac /\ tried mx (fun z' => z' = z) ac.
Proof.
  intros mx z L. unfold candidate. rewrite (evaluate_energy gm z WF L). cbn [bind]. eexists. split; [reflexivity|]. unfold feed, acc_feed, acc_init. cbn [acc_value acc_state obop]. split; auto. split; auto. split; auto. intros z' ->. apply bounds_refl.
Qed.
Lemma candidate_next : forall mx SS ac z, labeling gm z -> tried mx SS ac -> exists ac', candidate gm mx ac z = Ret ac' /\ tried mx (fun z' => SS z' \/ z' = z) ac'.
Proof.
  intros mx SS ac z L [T1 [T2 [T3 T4]]]. unfold candidate. rewrite (evaluate_energy gm z WF L). cbn [bind]. eexists. split; [reflexivity|].
  destruct (feed_value mx ac (energy gm z) z) as [[E _]|[u [E [[B F]|[B F]]]]]; [congruence| |]; rewrite F; rewrite T3 in E; injection E as <-.
  - split; auto. cbn [acc_state acc_value]. split; auto. split; auto. intros z' [H| ->]; [|apply bounds_refl]. apply (bounds_trans _ _ _ _ B). auto.
  - split; auto. split; auto. split; auto. intros z' [H| ->]; auto.
Qed.

Definition sum_states (st : dd) (states : list (list nat)) : Qc := qsum (fun m => energy (sub_model gm st m) (nth m states [])) (seq 0 (d_nm d)).
Lemma lower_bound_ok : forall st states, INV gm d st -> states_ok gm d st states -> lower_bound gm st states = Ret (sum_states st states).
Proof.
  intros st states I [S1 S2]. unfold lower_bound. destruct (iv_labels _ _ _ I) as [[L1 _] _]. rewrite L1. unfold sum_states.
  assert (X : forall l a, (forall m, In m l -> m < d_nm d) -> foldM (fun lb m => x <- rd states m ;; v <- v_evaluate Qc AdderQ (sub_model gm st m) x ;; Ret (lb + v)%Qc) l a = Ret (a + qsum (fun m => energy (sub_model gm st m) (nth m states [])) l)%Qc).
  { induction l as [|m l IH]; intros a H; cbn [foldM]. { rewrite qsum_nil. f_equal. ring. } assert (Hm : m < d_nm d) by (apply H; left; auto). rewrite (rd_nth _ states m []) by lia. cbn [bind]. rewrite evaluate_energy; auto; [|apply (sub_wf gm WF d DC OR); auto].
    cbn [bind]. rewrite IH by (intros; apply H; right; auto). rewrite qsum_cons. f_equal. ring. }
  rewrite X. { f_equal. ring. } intros m J. apply in_seq in J. lia.
Qed.

Lemma get_bounds_ok : forall mx fill st states, INV gm d st -> states_ok gm d st states -> dd_same st = repeat TMaybe (d_nm d) \/ same_ok gm d (dd_same st) ->
  exists ac same, get_bounds gm mx fill st states = Ret (sum_states st states, ac, same) /\ same_ok gm d same /\ tried mx (primal fill gm d states) ac.
Proof.
  intros mx fill st states I ST SM. unfold get_bounds. rewrite lower_bound_ok by auto. cbn [bind]. destruct (same_variables_ok gm d DC st I NM SM) as [same [E1 SO]]. rewrite E1. cbn [bind]. rewrite (iv_dec _ _ _ I).
  assert (RL : exists real, (if fill then fill_table gm d (fun v => Ret v) (map (fun l => repeat 0 (length l)) (dd_labels st)) else Ret []) = Ret real /\ (fill = true -> filled_with d real (fun v => v))).
  { destruct fill; [|exists []; split; auto; discriminate]. destruct (iv_labels _ _ _ I) as [[L1 L2] _]. destruct (fill_ok gm d DC (fun v => Ret v) (fun v => v) ltac:(auto) (map (fun l => repeat 0 (length l)) (dd_labels st))) as [t [E F]].
    - split. { rewrite map_length. auto. } intros m Hm. rewrite (nth_indep _ [] (repeat 0 (@length nat []))) by (rewrite map_length; lia). rewrite (map_nth (fun l : list nat => repeat 0 (length l))), repeat_length. auto.
    - exists t. auto. }
  destruct RL as [real [ER RF]]. rewrite ER. cbn [bind]. destruct (default_ok gm WF d DC st states I ST) as [def [ED [EL LD]]]. rewrite ED. cbn [bind]. destruct (candidate_first mx def LD) as [ac0 [EC T0]]. rewrite EC. cbn [bind].
  destruct (iv_labels _ _ _ I) as [[L1 _] _]. rewrite L1.
  set (P := fun n z => z = def \/ exists m, m < n /\ ((all_variables gm d m /\ z = nth m states []) \/ (fill = true /\ ~ all_variables gm d m /\ overlays d m (nth m states []) def z))).
  destruct (foldM_seq_ind nat (accumulation (option Qc)) (fun n ac => tried mx (P n) ac) (sub_candidate gm mx fill same real states def) (seq 0 (d_nm d)) 0 ac0) as [ac [E T]].
  - apply (tried_iff mx (fun z' => z' = def)); auto. intros z. unfold P. split; auto. intros [H|[m [H _]]]; [auto|lia].
  - intros i a ac Hi T. apply nth_error_seq0 in Hi. destruct Hi as [-> Hi]. cbn [plus] in *. unfold sub_candidate. destruct SO as [SO1 SO2]. rewrite (rd_nth _ same i TMaybe) by lia. cbn [bind]. destruct ST as [ST1 ST2]. rewrite (rd_nth _ states i []) by lia. cbn [bind].
    destruct (SO2 i Hi) as [[-> AV]|[-> AV]].
    + destruct (candidate_next mx _ ac (nth i states []) (full_labeling st states i I (conj ST1 ST2) Hi AV) T) as [ac' [E' T']]. exists ac'. split; auto. revert T'. apply tried_iff. intros z. unfold P. split.
      * intros [[H|[m [H1 H2]]]| ->]; auto. { right. exists m. split; auto. } right. exists i. split; auto.
      * intros [H|[m [H1 H2]]]; auto. destruct (Nat.eq_dec m i) as [->|]. { destruct H2 as [[_ ->]|[_ [H2 _]]]; [auto|tauto]. } left. right. exists m. split; [lia|auto].
    + destruct fill.
      * destruct (filled_ok st states real i def I (conj ST1 ST2) (RF eq_refl) Hi LD) as [z0 [E0 [O0 L0]]]. rewrite E0. cbn [bind]. destruct (candidate_next mx _ ac z0 L0 T) as [ac' [E' T']]. exists ac'. split; auto. revert T'. apply tried_iff. intros z. unfold P. split.
        { intros [[H|[m [H1 H2]]]| ->]; auto. { right. exists m. split; auto. } right. exists i. split; auto. }
        { intros [H|[m [H1 H2]]]; auto. destruct (Nat.eq_dec m i) as [->|]. { destruct H2 as [[H2 _]|[_ [_ H2]]]; [tauto|]. right. apply (overlays_unique i (nth i states []) def); auto. } left. right. exists m. split; [lia|auto]. }
      * exists ac. split; auto. revert T. apply tried_iff. intros z. unfold P. split.
        { intros [H|[m [H1 H2]]]; auto. right. exists m. split; auto. }
        { intros [H|[m [H1 H2]]]; auto. destruct (Nat.eq_dec m i) as [->|]. { destruct H2 as [[H2 _]|[H2 _]]; [tauto|discriminate]. } right. exists m. split; [lia|auto]. }
  - rewrite E. cbn [bind]. exists ac, same. split; auto. split; auto. cbn [plus] in T. rewrite seq_length in T. revert T. apply tried_iff. intros z. unfold P, primal. split.
    + intros [->|[m [H1 [H2|[H2 [H3 H4]]]]]]; [left; auto|right|right]; exists m; split; auto. right. split; auto. split; auto. exists def. auto.
    + intros [H|[m [H1 [H2|[H2 [H3 [def' [H4 H5]]]]]]]]; [left; apply (elected_unique states); auto|right|right]; exists m; split; auto. right. split; auto. split; auto. rewrite (elected_unique states def def'); auto.
Qed.

(** ** One iteration *)
Record FULL (st : dd) : Prop := {
  fl_inv : INV gm d st;
  fl_same : dd_same st = repeat TMaybe (d_nm d) \/ same_ok gm d (dd_same st);
  fl_states : length (dd_states st) = d_nm d }.

(** what an iteration does *)
Record iterated (mx : bool) (p : dd_params) (c : call) (it : nat) (st st' : dd) : Prop := {
  it_solved : forall m, m < d_nm d -> c_solve c it m (sub_model gm st m) = Ret (nth m (dd_states st') []);
  it_labeling : forall m, m < d_nm d -> labeling (sub_model gm st m) (nth m (dd_states st') []);
  it_upper : exists z, tried mx (primal (p_fill p) gm d (dd_states st')) (mkAcc (Some (energy gm z)) z) /\ dd_upper st' = feed mx (dd_upper st) (Some (energy gm z)) z;
  it_lower : dd_neg_lower st' = feed mx (dd_neg_lower st) (Some (- sum_states st (dd_states st'))%Qc) [];
  it_kept : dd_labels st' = dd_labels st /\ dd_factors st' = dd_factors st;
  it_dual : exists st0 : dd, Forall2 (moved (if mx then - c_step c it st0 else c_step c it st0)%Qc (dd_states st')) (dd_blocks st) (dd_blocks st') }.

Lemma iterate_ok : forall mx p c it st, FULL st -> valid_solver c -> exists st', iterate gm mx p c it st = Ret st' /\ FULL st' /\ iterated mx p c it st st'.
Proof.
  intros mx p c it st [I SM LS] VS. unfold iterate. destruct (iv_labels _ _ _ I) as [[L1 _] _]. rewrite L1.
  destruct (foldM_seq_ind nat (list (list nat)) (fun n states => length states = d_nm d /\ forall m, m < n -> c_solve c it m (sub_model gm st m) = Ret (nth m states []) /\ labeling (sub_model gm st m) (nth m states []))
    (fun states m => x <- c_solve c it m (sub_model gm st m) ;; wr states m x) (seq 0 (d_nm d)) 0 (dd_states st)) as [states [E [S1 S2]]].
  - split; auto. intros; lia.
  - intros i a states Hi [S1 S2]. apply nth_error_seq0 in Hi. destruct Hi as [-> Hi]. cbn [plus] in *. destruct (VS it i (sub_model gm st i)) as [x [Ex Lx]]. { apply (sub_wf gm WF d DC OR); auto. } rewrite Ex. cbn [bind]. rewrite wr_Ret by lia. eexists. split; [reflexivity|]. rewrite length_upd. split; auto.
    intros m Hm. rewrite nth_upd by lia. destruct (Nat.eq_dec i m) as [<-|]; auto. apply S2. lia.
  - rewrite E. cbn [bind]. cbn [plus] in S2. rewrite seq_length in S2. assert (ST : states_ok gm d st states). { split; auto. intros m Hm. apply S2. auto. }
    destruct (get_bounds_ok mx (p_fill p) st states I ST SM) as [ac [same [EB [SO TR]]]]. rewrite EB. cbn [bind]. cbv zeta. cbn [dd_blocks dd_dec dd_labels dd_factors dd_same dd_upper dd_neg_lower].
    set (st1 := mkDD (dd_dec st) (dd_labels st) (dd_factors st) (dd_blocks st) same states _ _). set (step := if mx then _ else _).
    destruct (dual_step_ok gm d DC st states step I ST) as [bs [ED [GB MV]]]. rewrite ED. cbn [bind]. eexists. split; [reflexivity|]. split.
    + constructor; cbn [dd_same dd_states]; auto. destruct I as [I1 I2 I3 I4]. constructor; cbn; auto.
    + destruct ac as [av az]. assert (av = Some (energy gm az)) by (destruct TR as [_ [_ [TR _]]]; auto). subst av. constructor; cbn [dd_states dd_upper dd_neg_lower dd_blocks acc_value acc_state]; try (intros m Hm; apply S2; auto); auto.
      * exists az. split; auto.
      * exists st1. exact MV.
Qed.

(** ** Invariants of histories *)
Lemma loop_ind : forall (P : dd -> Prop) mx p c, valid_solver c -> (forall it st st', FULL st -> P st -> iterated mx p c it st st' -> FULL st' -> P st') ->
  forall n it st, FULL st -> P st -> exists st' b, infer_loop gm mx p c n it st = Ret (st', b) /\ FULL st' /\ P st' /\
    (b = true -> converged p (acc_value (dd_upper st')) (acc_value (dd_neg_lower st')) = true) /\ (0 < n -> exists it' st0, FULL st0 /\ P st0 /\ iterated mx p c it' st0 st').
Proof.
  intros P mx p c VS HP. induction n as [|n IH]; intros it st F H; cbn [infer_loop]. { exists st, false. split; auto. split; auto. split; auto. split; [discriminate|lia]. }
  destruct (iterate_ok mx p c it st F VS) as [st1 [E [F1 I1]]]. rewrite E. cbn [bind]. assert (P1 := HP it st st1 F H I1 F1). destruct (c_stop c it). { exists st1, false. split; auto. split; auto. split; auto. split; [discriminate|]. exists it, st. auto. }
  destruct (converged p _ _) eqn:EC. { exists st1, true. split; auto. split; auto. split; auto. split; auto. exists it, st. auto. }
  destruct (IH (S it) st1 F1 P1) as [st2 [b [E2 [F2 [P2 [C2 L2]]]]]]. exists st2, b. split; auto. split; auto. split; auto. split; auto. intros _. destruct n as [|n']; [|apply L2; lia]. cbn [infer_loop] in E2. injection E2 as <- <-. exists it, st. auto.
Qed.
Lemma run_ind : forall (P : dd -> Prop) mx p cs, Forall valid_solver cs -> (forall c it st st', In c cs -> FULL st -> P st -> iterated mx p c it st st' -> FULL st' -> P st') ->
  forall st, FULL st -> P st -> exists st', dd_run gm mx p st cs = Ret st' /\ FULL st' /\ P st'.
Proof.
  intros P mx p cs VS. unfold dd_run. induction VS as [|c cs V VS IH]; intros HP st F H; cbn [foldM]. { exists st. auto. }
  unfold infer. destruct (loop_ind P mx p c V) with (n := p_iterations p) (it := 0) (st := st) as [st1 [b [E [F1 [P1 _]]]]]; auto. { intros it s s' A1 A2 A3 A4. apply (HP c it s s'); auto. left. auto. }
  rewrite E. cbn [bind fst]. apply IH; auto. intros c' it s s' J. apply HP. right. auto.
Qed.

(** value and labeling *)
Definition UP (st : dd) : Prop := dd_upper st = mkAcc None [] \/ (labeling gm (dd_arg st) /\ dd_value st = Some (energy gm (dd_arg st))).
Lemma up_step : forall mx p c it st st', UP st -> iterated mx p c it st st' -> UP st' /\ exists v, dd_value st' = Some v.
Proof.
  intros mx p c it st st' U I. destruct (it_upper _ _ _ _ _ _ I) as [z [[T1 [T2 [T3 T4]]] E]]. unfold UP, dd_arg, dd_value in *. rewrite E. cbn [acc_state] in T1. destruct (feed_value mx (dd_upper st) (energy gm z) z) as [[_ ->]|[u [Eu [[B ->]|[B ->]]]]]; cbn [acc_state acc_value].
  - split; eauto. - split; eauto. - split; eauto.
Qed.
Definition LOW (mx : bool) (st : dd) : Prop := forall b x, dd_bound st = Some b -> labeling gm x -> bounds mx b (energy gm x).
Lemma sum_bound : forall mx c it p st st' x, FULL st -> exact_solver mx c -> iterated mx p c it st st' -> labeling gm x -> bounds mx (sum_states st (dd_states st')) (energy gm x).
Proof.
  intros mx c it p st st' x F EX I L. destruct (restriction_exists gm d DC st x (fl_inv _ F)) as [y R]. rewrite <- (sum_energy gm WF d DC OR CF st x y (fl_inv _ F) R). apply bounds_sum. intros m J. apply in_seq in J. assert (Hm : m < d_nm d) by lia.
  destruct (EX it m (sub_model gm st m)) as [x' [E B]]. { apply (sub_wf gm WF d DC OR); auto. apply F. } rewrite (it_solved _ _ _ _ _ _ I m Hm) in E. injection E as <-. apply B. apply (restricts_labeling gm d DC st m x); auto. apply F.
Qed.
Lemma low_step : forall mx p c it st st', exact_solver mx c -> FULL st -> LOW mx st -> iterated mx p c it st st' -> LOW mx st' /\ exists b, dd_bound st' = Some b.
Proof.
  intros mx p c it st st' EX F LO I. unfold LOW, dd_bound in *. rewrite (it_lower _ _ _ _ _ _ I). assert (SB : forall x, labeling gm x -> bounds mx (- - sum_states st (dd_states st'))%Qc (energy gm x)). { intros x L. rewrite Qcopp_involutive. apply (sum_bound mx c it p); auto. }
  destruct (feed_value mx (dd_neg_lower st) (- sum_states st (dd_states st'))%Qc []) as [[_ ->]|[u [Eu [[B ->]|[B ->]]]]]; cbn [acc_value option_map].
  - split; [|eauto]. intros b x E. injection E as <-. auto.
  - split; [|eauto]. intros b x E. injection E as <-. auto.
  - rewrite Eu in *. split; [auto|]. cbn. eauto.
Qed.
End Run.
