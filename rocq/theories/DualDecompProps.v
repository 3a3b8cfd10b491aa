(** Properties of dual decomposition with the subgradient method. *)
From Coq Require Import ZArith QArith Qcanon Sorted.
From Verif Require Import Base Values GmView GmViewSpec GmViewProofs ShapeSpec ShapeProofs UtilModel ConstraintModel ConstraintSpec ConstraintProofs ConstraintCounts MpModel DecompModel DecompSpec DecompProofs DecompReorder DecompBuild DecompProps DualDecompModel DualDecompSpec DualDecompProofs DualDecompInv DualDecompStep DualDecompBounds DualDecompRun DualDecompConv MovemakerSpec BruteforceModel BruteforceProps.
Open Scope nat_scope.

Lemma decompose_ok : forall gm i, wf_gmv gm -> sensible gm i -> exists d, decompose gm i = Ret d /\ usable gm d /\ completed (map fst (v_factors gm)) d.
Proof.
  intros gm i WF SE. set (nv := length (v_labels gm)). set (fs := map fst (v_factors gm)).
  assert (WFF : wf_factors nv fs). { destruct WF as [W _]. unfold wf_factors, fs. apply Forall_forall. intros vs I. apply in_map_iff in I. destruct I as [fc [<- I]]. rewrite Forall_forall in W. apply W. auto. }
  assert (LF : length fs = length (v_factors gm)) by apply map_length.
  assert (X : exists d, match i with TREE => decomposeIntoTree nv fs | SPANNINGTREES => decomposeIntoSpanningTrees nv fs | BLOCKS n => decomposeIntoClosedBlocks nv fs n | KFANS k => decomposeIntoKFans nv fs k
       | MANUAL s => decomposeManual nv fs s | MANUALVARCLOSE s => decomposeIntoClosedBlocks_sets nv fs s | MANUALVAROPEN s => decomposeIntoOpenBlocks nv fs s end = Ret d /\
     decomposes nv fs d /\ 0 < d_nm d /\ forall f, f < length fs -> occurs_in d f <> []).
  { assert (CV : forall d, covers nv fs d -> forall f, f < length fs -> occurs_in d f <> []). { intros d [_ C] f Hf E. apply (C f Hf). unfold occurs_in in E. apply map_eq_nil in E. auto. }
    destruct i as [| |n|k|s|s|s]; cbn [sensible] in SE.
    - destruct (C52_tree nv fs WFF) as [d [E [D [_ [C [N _]]]]]]. exists d. split; auto. split; auto. split; [lia|auto].
    - destruct (C52_spanning_trees nv fs WFF) as [d [E [D [_ [N [_ C]]]]]]. assert (fs <> []) by (unfold fs; intros Q; apply map_eq_nil in Q; auto). exists d. split; auto. split; auto. split; [apply N; auto|]. apply CV. apply C. auto.
    - destruct (C52_closed_blocks nv fs n WFF SE) as [d [E [D [_ [_ [N C]]]]]]. exists d. split; auto. split; auto. split; [lia|auto].
    - destruct SE as [K [P O]]. destruct (C52_kfans nv fs k WFF) as [d [E [D [_ [N C]]]]]; auto. { unfold fs. apply Forall_map. auto. } exists d. split; auto. split; auto. split; [|apply CV; auto]. rewrite N. apply Nat.div_str_pos. fold nv in P. lia.
    - destruct SE as [NE [R C]]. destruct (C52_manual nv fs s WFF) as [d [E [D [_ [_ [N [O _]]]]]]]. { rewrite LF. auto. } exists d. split; auto. split; auto. split; [rewrite N; destruct s; [tauto|cbn; lia]|]. intros f Hf. rewrite O. rewrite LF in Hf. destruct (C f Hf) as [l [I J]]. apply (In_nth _ _ []) in I. destruct I as [m [Hm <-]].
      intros Q. assert (IN : In m (flat_map (fun m => repeat m (count_occ Nat.eq_dec (nth m s []) f)) (seq 0 (length s)))). { apply in_flat_map. exists m. split; [apply in_seq; lia|]. apply (count_occ_In Nat.eq_dec) in J. destruct (count_occ _ _ _); [lia|left; auto]. } rewrite Q in IN. destruct IN.
    - destruct SE as [[NE S] C]. destruct (C52_closed_blocks_sets nv fs s WFF S) as [d [E [D [_ [_ [N [_ [_ [_ CC]]]]]]]]]. exists d. split; auto. split; auto. split; [rewrite N; destruct s; [tauto|cbn; lia]|]. apply CV. apply CC; auto.
    - destruct SE as [[NE S] C]. destruct (C52_open_blocks nv fs s WFF S) as [d [E [D [_ [N [_ [O _]]]]]]]. exists d. split; auto. split; auto. split; [rewrite N; destruct s; [tauto|cbn; lia]|]. intros f Hf. rewrite Forall_forall in C. rewrite LF in Hf. destruct (C (nth f (v_factors gm) ([], fun _ => 0%Qc)) ltac:(apply nth_In; auto)) as [l [I J]]. apply (In_nth _ _ []) in I. destruct I as [m [Hm <-]].
      intros Q. assert (IN : In m (occurs_in d f)). { apply O; [lia|]. split; auto. unfold fs. rewrite nth_fst. auto. } rewrite Q in IN. destruct IN. }
  destruct X as [d [E [D [N C]]]]. destruct (C52_prepare nv fs d D) as [d1 [d2 [E1 [E2 [D2 [O2 [CP [N2 [_ [_ [R _]]]]]]]]]]]. exists d2. unfold decompose. fold nv fs in E |- *. unfold nvar. fold nv. rewrite E. cbn [bind]. rewrite E1. cbn [bind]. split; auto. split; [|auto]. split; auto. split; auto. split; [lia|].
  intros f Hf. rewrite <- LF in Hf. destruct (R f) as [r [-> _]]. intros Q. apply app_eq_nil in Q. apply (C f Hf). apply Q.
Qed.

(** The state after the constructor and a history of calls of infer *)
Definition after (gm : gmv Qc) (mx : bool) (p : dd_params) (cs : list call) (st : dd) : Prop :=
  exists st0, dd_new gm p = Ret st0 /\ dd_run gm mx p st0 cs = Ret st.
Lemma new_ok : forall gm p, wf_gmv gm -> sensible gm (p_id p) -> exists d st0, decompose gm (p_id p) = Ret d /\ usable gm d /\ dd_new gm p = Ret st0 /\ FULL gm d st0 /\ dd_upper st0 = mkAcc None [] /\ dd_neg_lower st0 = mkAcc None [].
Proof.
  intros gm p WF SE. destruct (decompose_ok gm (p_id p) WF SE) as [d [E [U _]]]. exists d. unfold dd_new. rewrite E. cbn [bind]. destruct U as [D [O [N C]]]. destruct (init_ok gm d D) as [st0 [E0 [I [S [L [A B]]]]]]. exists st0. split; auto. split. { split; auto. } split; auto. split; auto. constructor; auto.
Qed.
Lemma usable_cf : forall gm d, usable gm d -> forall f, f < length (v_factors gm) -> nth f (d_fl d) [] <> [].
Proof. intros gm d [_ [_ [_ C]]] f Hf Q. apply (C f Hf). unfold occurs_in. rewrite Q. auto. Qed.
Lemma after_ind : forall gm mx p cs st (P : dd -> Prop), wf_gmv gm -> sensible gm (p_id p) -> Forall valid_solver cs -> after gm mx p cs st ->
  (forall d st0, decompose gm (p_id p) = Ret d -> dd_new gm p = Ret st0 -> dd_upper st0 = mkAcc None [] -> dd_neg_lower st0 = mkAcc None [] -> FULL gm d st0 -> P st0) ->
  (forall d c it st st', In c cs -> usable gm d -> FULL gm d st -> P st -> iterated gm d mx p c it st st' -> FULL gm d st' -> P st') ->
  exists d, decompose gm (p_id p) = Ret d /\ usable gm d /\ FULL gm d st /\ P st.
Proof.
  intros gm mx p cs st P WF SE VS [st0 [E R]] P0 PS. destruct (new_ok gm p WF SE) as [d [st1 [ED [U [E1 [F [A B]]]]]]]. rewrite E in E1. injection E1 as <-. exists d. split; auto. split; auto. destruct U as [D [O [N C]]].
  destruct (run_ind gm WF d D O N P mx p cs VS) with (st := st0) as [st' [R' [F' P']]]; eauto.
  - intros c it s s' J F1 H1 I F2. apply (PS d c it s s'); auto. split; auto.
  - rewrite R in R'. injection R' as <-. auto.
Qed.
Lemma states_of : forall gm d st mx p c it st', FULL gm d st' -> iterated gm d mx p c it st st' -> states_ok gm d st (dd_states st').
Proof. intros gm d st mx p c it st' F I. split; [apply F|]. intros m Hm. apply (it_labeling _ _ _ _ _ _ _ _ I). auto. Qed.

(** The constructor succeeds for every choice that covers the model, and all calls of infer do, if the solver returns labelings. *)
Theorem C53_total : forall gm mx p cs, wf_gmv gm -> sensible gm (p_id p) -> Forall valid_solver cs ->
  exists st, after gm mx p cs st /\ usable gm (dd_dec st).
Proof.
  intros gm mx p cs WF SE VS. destruct (new_ok gm p WF SE) as [d [st0 [ED [U [E1 [F [A B]]]]]]]. assert (U' := U). destruct U as [D [O [N C]]].
  destruct (run_ind gm WF d D O N (fun _ => True) mx p cs VS) with (st := st0) as [st [R [F' _]]]; auto. exists st. split. { exists st0. auto. } rewrite (iv_dec _ _ _ (fl_inv _ _ _ F')). auto.
Qed.

(** At any time the submodels together are the model: labelings of the submodels that agree with a labeling of the model have its value. *)
Theorem C53_reparametrization : forall gm mx p cs st x, wf_gmv gm -> sensible gm (p_id p) -> Forall valid_solver cs -> after gm mx p cs st -> labeling gm x ->
  (exists y, forall m, m < d_nm (dd_dec st) -> restricts (dd_dec st) m x (y m)) /\
  forall y, (forall m, m < d_nm (dd_dec st) -> restricts (dd_dec st) m x (y m)) ->
    (forall m, m < d_nm (dd_dec st) -> wf_gmv (sub_model gm st m) /\ labeling (sub_model gm st m) (y m)) /\ total_of gm st y = energy gm x.
Proof.
  intros gm mx p cs st x WF SE VS AF L. destruct (after_ind gm mx p cs st (fun _ => True) WF SE VS AF) as [d [_ [U [F _]]]]; auto. rewrite (iv_dec _ _ _ (fl_inv _ _ _ F)). assert (CF := usable_cf gm d U). destruct U as [D [O [N _]]]. assert (I := fl_inv _ _ _ F). split.
  - apply (restriction_exists gm d D st x I).
  - intros y R. split. { intros m Hm. split. { apply (sub_wf gm WF d D O); auto. } apply (restricts_labeling gm d D st m x); auto. }
    unfold total_of. rewrite (iv_dec _ _ _ I). apply (sum_energy gm WF d D O CF st x y I R).
Qed.

(** value() is the value of the labeling arg() returns, at any time; there is one after the first iteration. *)
Theorem C53_value : forall gm mx p cs st, wf_gmv gm -> sensible gm (p_id p) -> Forall valid_solver cs -> after gm mx p cs st ->
  (dd_value st = None /\ dd_arg st = [] \/ labeling gm (dd_arg st) /\ dd_value st = Some (energy gm (dd_arg st))) /\
  (cs <> [] -> 0 < p_iterations p -> dd_value st <> None).
Proof.
  intros gm mx p cs st WF SE VS AF. split.
  - destruct (after_ind gm mx p cs st (UP gm) WF SE VS AF) as [d [_ [_ [_ [H|H]]]]]; auto.
    + intros d st0 _ _ H _ _. left. auto.
    + intros d c it s s' _ _ _ H I _. apply (up_step gm d mx p c it s s' H I).
    + left. unfold dd_value, dd_arg. rewrite H. auto.
  - intros NE IT. destruct AF as [st0 [E R]]. destruct (new_ok gm p WF SE) as [d [st1 [ED [U [E1 [F [A B]]]]]]]. rewrite E in E1. injection E1 as <-. destruct U as [D [O [N C]]].
    destruct cs as [|c cs]; [tauto|]. inversion VS as [|? ? V VS']; subst. unfold dd_run in R. cbn [foldM] in R. unfold infer in R.
    destruct (loop_ind gm WF d D O N (UP gm) mx p c V) with (n := p_iterations p) (it := 0) (st := st0) as [s1 [b [E1 [F1 [P1 [_ LST]]]]]]; auto. { intros it s s' _ H I _. apply (up_step gm d mx p c it s s' H I). } { left. auto. }
    rewrite E1 in R. cbn [bind fst] in R. destruct (LST IT) as [it' [s0 [F0 [P0 I0]]]]. destruct (up_step gm d mx p c it' s0 s1 P0 I0) as [_ [v Ev]].
    destruct (run_ind gm WF d D O N (fun s => UP gm s /\ exists v, dd_value s = Some v) mx p cs VS') with (st := s1) as [s2 [R2 [_ [_ [v2 V2]]]]]; eauto. { intros c' it s s' _ _ [H _] I _. apply (up_step gm d mx p c' it s s' H I). }
    assert (Q : dd_run gm mx p s1 cs = Ret st) by exact R. rewrite Q in R2. injection R2 as <-. congruence.
Qed.

(** With an exact solver for the submodels, bound() is a bound for the value of every labeling, hence for value(). *)
Theorem C53_bound : forall gm mx p cs st b, wf_gmv gm -> sensible gm (p_id p) -> Forall (exact_solver mx) cs -> after gm mx p cs st -> dd_bound st = Some b ->
  (forall x, labeling gm x -> bounds mx b (energy gm x)) /\ forall v, dd_value st = Some v -> bounds mx b v.
Proof.
  intros gm mx p cs st b WF SE EX AF B. assert (VS : Forall valid_solver cs). { apply Forall_forall. intros c I. rewrite Forall_forall in EX. intros it m g W. destruct (EX c I it m g W) as [x [E [L _]]]. eauto. }
  destruct (after_ind gm mx p cs st (LOW gm mx) WF SE VS AF) as [d [_ [_ [_ H]]]].
  - intros d st0 _ _ _ H _ b' x E. unfold dd_bound in E. rewrite H in E. discriminate.
  - intros d c it s s' J U F H I _. assert (CF := usable_cf gm d U). destruct U as [D [O [N _]]]. rewrite Forall_forall in EX. apply (low_step gm WF d D O N CF mx p c it s s' (EX c J) F H I).
  - split; auto. intros v E. destruct (C53_value gm mx p cs st WF SE VS AF) as [[[Q _]|[L Q]] _]; [congruence|]. rewrite E in Q. injection Q as ->. auto.
Qed.

(** One iteration: arg() is the best of the labelings found before and those constructed from the labelings of the submodels;
    bound() is the best of the bound before and the sum of the values of the submodels. *)
Theorem C53_iteration : forall gm mx p cs st c it, wf_gmv gm -> sensible gm (p_id p) -> Forall valid_solver cs -> after gm mx p cs st -> valid_solver c ->
  exists st' v b, iterate gm mx p c it st = Ret st' /\ dd_dec st' = dd_dec st /\ dd_value st' = Some v /\ dd_bound st' = Some b /\
    (forall m, m < d_nm (dd_dec st) -> c_solve c it m (sub_model gm st m) = Ret (nth m (dd_states st') [])) /\
    (exists z, primal (p_fill p) gm (dd_dec st) (dd_states st') z) /\
    (forall z, primal (p_fill p) gm (dd_dec st) (dd_states st') z -> labeling gm z /\ bounds mx v (energy gm z)) /\ (forall v0, dd_value st = Some v0 -> bounds mx v v0) /\
    (primal (p_fill p) gm (dd_dec st) (dd_states st') (dd_arg st') \/ dd_arg st' = dd_arg st /\ dd_value st = Some v) /\
    (let lb := total_of gm st (fun m => nth m (dd_states st') []) in bounds mx lb b /\ (b = lb \/ dd_bound st = Some b)) /\ (forall b0, dd_bound st = Some b0 -> bounds mx b0 b).
Proof.
  intros gm mx p cs st c it WF SE VS AF V. destruct (after_ind gm mx p cs st (UP gm) WF SE VS AF) as [d [_ [U [F P]]]]. { intros d st0 _ _ H _ _. left. auto. } { intros d c' it' s s' _ _ _ H I _. apply (up_step gm d mx p c' it' s s' H I). }
  assert (CF := usable_cf gm d U). destruct U as [D [O [N _]]]. destruct (iterate_ok gm WF d D O N mx p c it st F V) as [st' [E [F' I]]]. exists st'. assert (ID := iv_dec _ _ _ (fl_inv _ _ _ F)).
  destruct (it_upper _ _ _ _ _ _ _ _ I) as [z [[T1 [T2 [T3 T4]]] EU]]. cbn [acc_state acc_value] in *. assert (EL := it_lower _ _ _ _ _ _ _ _ I).
  assert (LZ : forall z', primal (p_fill p) gm d (dd_states st') z' -> labeling gm z').
  { intros z' Z. assert (ST := states_of gm d st mx p c it st' F' I). assert (IV := fl_inv _ _ _ F). destruct (default_ok gm WF d D st (dd_states st') IV ST) as [def [_ [EDF LDF]]]. destruct Z as [Z|[m [Hm [[Z ->]|[_ [_ [df [Z1 Z2]]]]]]]].
    - rewrite (elected_unique gm d N (dd_states st') z' def); auto.
    - apply (full_labeling gm d D N st (dd_states st') m); auto.
    - rewrite (elected_unique gm d N (dd_states st') df def) in Z2 by auto. destruct (fill_ok gm d D (fun v => Ret v) (fun v => v) ltac:(auto) (dd_labels st)) as [real [_ FW]]. { apply (iv_labels _ _ _ IV). }
      destruct (filled_ok gm d D N st (dd_states st') real m def IV ST FW Hm LDF) as [z0 [_ [O0 L0]]]. rewrite (overlays_unique d N m (nth m (dd_states st') []) def z' z0); auto. }
  assert (X : exists v, dd_value st' = Some v /\ bounds mx v (energy gm z) /\ (forall v0, dd_value st = Some v0 -> bounds mx v v0) /\ (dd_arg st' = z \/ dd_arg st' = dd_arg st /\ dd_value st = Some v)).
  { unfold dd_value, dd_arg. rewrite EU. destruct (feed_value mx (dd_upper st) (energy gm z) z) as [[EV ->]|[u [EV [[B ->]|[B ->]]]]]; cbn [acc_value acc_state].
    - exists (energy gm z). split; auto. split; [apply bounds_refl|]. split; auto. congruence.
    - exists (energy gm z). split; auto. split; [apply bounds_refl|]. split; auto. intros v0 Q. rewrite EV in Q. injection Q as <-. auto.
    - exists u. split; auto. split; auto. split; auto. intros v0 Q. rewrite EV in Q. injection Q as <-. apply bounds_refl. }
  destruct X as [v [Ev [Bz [Bv A]]]]. exists v.
  assert (TS : total_of gm st (fun m => nth m (dd_states st') []) = sum_states gm d st (dd_states st')). { unfold total_of, sum_states. rewrite ID. reflexivity. }
  assert (Y : exists b, dd_bound st' = Some b /\ bounds mx (sum_states gm d st (dd_states st')) b /\ (b = sum_states gm d st (dd_states st') \/ dd_bound st = Some b) /\ forall b0, dd_bound st = Some b0 -> bounds mx b0 b).
  { unfold dd_bound. rewrite EL. set (lb := sum_states gm d st (dd_states st')). destruct (feed_value mx (dd_neg_lower st) (- lb)%Qc []) as [[EV ->]|[u [EV [[B ->]|[B ->]]]]]; cbn [acc_value option_map].
    - exists lb. rewrite Qcopp_involutive. split; auto. split; [apply bounds_refl|]. split; auto. rewrite EV. cbn. congruence.
    - exists lb. rewrite Qcopp_involutive. split; auto. split; [apply bounds_refl|]. split; auto. rewrite EV. cbn. intros b0 Q. injection Q as <-. apply bounds_opp in B. rewrite Qcopp_involutive in B. auto.
    - rewrite EV. cbn. exists (- u)%Qc. split; auto. split. { apply bounds_opp in B. rewrite Qcopp_involutive in B. auto. } split; auto. intros b0 Q. injection Q as <-. apply bounds_refl. }
  destruct Y as [b [Eb [B1 [B2 B3]]]]. exists b. rewrite ID, TS. split; auto. split. { apply (iv_dec _ _ _ (fl_inv _ _ _ F')). } split; auto. split; auto. split. { apply (it_solved _ _ _ _ _ _ _ _ I). } split; [eauto|]. split.
  - intros z' Z. split; auto. apply (bounds_trans _ _ (energy gm z)); auto.
  - split; auto. split. { destruct A as [->|A]; auto. } split; auto.
Qed.

(** If the labelings of the submodels, best ones, agree, they are a best labeling of the model: the method has found one and knows it. *)
Theorem C53_agreement : forall gm mx p cs st c it st', wf_gmv gm -> sensible gm (p_id p) -> Forall (exact_solver mx) (cs ++ [c]) -> after gm mx p cs st -> iterate gm mx p c it st = Ret st' ->
  agree (dd_dec st) (dd_states st') -> best mx gm (dd_arg st') /\ dd_value st' = Some (energy gm (dd_arg st')) /\ dd_bound st' = dd_value st'.
Proof.
  intros gm mx p cs st c it st' WF SE EX AF E AG. apply Forall_app in EX. destruct EX as [EX EC]. inversion EC as [|? ? ECc _]; subst. assert (VE : forall c, exact_solver mx c -> valid_solver c). { intros c' H it' m g W. destruct (H it' m g W) as [x [Q [L _]]]. eauto. }
  assert (VS : Forall valid_solver cs). { revert EX. apply Forall_impl. auto. }
  destruct (after_ind gm mx p cs st (fun s => UP gm s /\ LOW gm mx s) WF SE VS AF) as [d [_ [U [F [P LO]]]]]. { intros d st0 _ _ H H' _. split; [left; auto|]. intros b x Q. unfold dd_bound in Q. rewrite H' in Q. discriminate. }
  { intros d c' it' s s' J U' F' [H1 H2] I _. split; [apply (up_step gm d mx p c' it' s s' H1 I)|]. assert (CF := usable_cf gm d U'). destruct U' as [D [O [N _]]]. rewrite Forall_forall in EX. apply (low_step gm WF d D O N CF mx p c' it' s s' (EX c' J) F' H2 I). }
  assert (CF := usable_cf gm d U). destruct U as [D [O [N _]]]. destruct (iterate_ok gm WF d D O N mx p c it st F (VE c ECc)) as [s [E' [F' I]]]. rewrite E in E'. injection E' as <-. rewrite (iv_dec _ _ _ (fl_inv _ _ _ F)) in AG.
  assert (ST := states_of gm d st mx p c it st' F' I). assert (IV := fl_inv _ _ _ F). destruct (default_ok gm WF d D st (dd_states st') IV ST) as [z [_ [EZ LZ]]].
  assert (R : forall m, m < d_nm d -> restricts d m z (nth m (dd_states st') [])).
  { intros m Hm. split. { destruct (sub_labels gm d st m IV Hm) as [L1 _]. destruct ST as [_ ST]. specialize (ST m Hm). apply labeling_length in ST. lia. }
    intros v k C. destruct EZ as [EZ1 EZ2]. destruct (dc_range _ _ _ D _ _ _ C) as [Hv _]. destruct (EZ2 v Hv) as [[Q _]|[P0 _]]. { unfold copy_of in C. rewrite Q in C. destruct C. }
    unfold votes in P0. destruct (filter _ _) as [|[m' k'] t] eqn:Q; [cbn in P0; lia|]. assert (J : In (m', k') ((m', k') :: t)) by (left; auto). rewrite <- Q in J. apply filter_In in J. destruct J as [J1 J2]. apply Nat.eqb_eq in J2. cbn [fst snd] in J2. rewrite <- J2. apply (AG v m k m' k'); auto. }
  assert (SZ : sum_states gm d st (dd_states st') = energy gm z) by apply (sum_energy gm WF d D O CF st z (fun m => nth m (dd_states st') []) IV R).
  assert (BZ : forall x, labeling gm x -> bounds mx (energy gm z) (energy gm x)). { intros x L. rewrite <- SZ. apply (sum_bound gm WF d D O N CF mx c it p); auto. }
  destruct (up_step gm d mx p c it st st' P I) as [UP' [v Ev]]. destruct (low_step gm WF d D O N CF mx p c it st st' ECc F LO I) as [LO' [b Eb]].
  destruct UP' as [UP'|[LA EA]]. { unfold dd_value in Ev. rewrite UP' in Ev. discriminate. }
  assert (V1 : bounds mx (energy gm (dd_arg st')) (energy gm z)).
  { destruct (it_upper _ _ _ _ _ _ _ _ I) as [z0 [[T1 [T2 [T3 T4]]] EU]]. cbn [acc_state acc_value] in *. assert (B0 := T4 z (or_introl EZ)). unfold dd_value, dd_arg in *. rewrite EU in *. destruct (feed_value mx (dd_upper st) (energy gm z0) z0) as [[EV Q]|[u [EV [[B Q]|[B Q]]]]]; rewrite Q in *; cbn [acc_value acc_state] in *; auto.
    rewrite EV in EA. injection EA as <-. apply (bounds_trans _ _ _ _ B). auto. }
  assert (VV : energy gm (dd_arg st') = energy gm z) by (apply (bounds_antisym mx); auto). split. { split; auto. intros y L. rewrite VV. auto. } split; auto. rewrite EA, Eb. f_equal. rewrite VV. apply (bounds_antisym mx); [apply (LO' b z); auto|].
  unfold dd_bound in Eb. rewrite (it_lower _ _ _ _ _ _ _ _ I), SZ in Eb. destruct (feed_value mx (dd_neg_lower st) (- energy gm z)%Qc []) as [[EV Q]|[u [EV [[B Q]|[B Q]]]]]; rewrite Q in Eb; cbn [acc_value option_map] in Eb.
  - injection Eb as <-. rewrite Qcopp_involutive. apply bounds_refl.
  - injection Eb as <-. rewrite Qcopp_involutive. apply bounds_refl.
  - rewrite EV in Eb. injection Eb as <-. apply bounds_opp in B. rewrite Qcopp_involutive in B. auto.
Qed.

Lemma after_app : forall gm mx p cs c st r, after gm mx p cs st -> infer gm mx p c st = Ret r -> after gm mx p (cs ++ [c]) (fst r).
Proof. intros gm mx p cs c st r [st0 [E R]] I. exists st0. split; auto. unfold dd_run in *. rewrite foldM_app, R. cbn [bind foldM]. rewrite I. auto. Qed.
Lemma Qc_abs_mult : forall a b, Qc_abs (a * b)%Qc = (Qc_abs a * Qc_abs b)%Qc.
Proof.
  assert (P : forall a b, (0 <= a)%Qc -> (0 <= b)%Qc -> (0 <= a * b)%Qc). { intros a b H1 H2. replace 0%Qc with (0 * b)%Qc by ring. apply Qcmult_le_compat_r; auto. }
  assert (Z : forall a, (0 <= a)%Qc -> Qc_abs a = a). { intros a H. unfold Qc_abs. destruct (Qc_lt a 0) eqn:E; auto. apply Qc_lt_true in E. exfalso. apply (Qclt_not_le _ _ E H). }
  assert (N : forall a, (a <= 0)%Qc -> Qc_abs a = (- a)%Qc). { intros a H. unfold Qc_abs. destruct (Qc_lt a 0) eqn:E; auto. apply Qc_lt_false in E. assert (a = 0%Qc) by (apply Qcle_antisym; auto). subst. auto. }
  intros a b. destruct (Qclt_le_dec a 0) as [A|A]; destruct (Qclt_le_dec b 0) as [B|B]; try apply Qclt_le_weak in A; try apply Qclt_le_weak in B.
  - rewrite (N a), (N b) by auto. rewrite Z. 2: { replace (a * b)%Qc with ((- a) * (- b))%Qc by ring. apply P; qc. } ring.
  - rewrite (N a), (Z b) by auto. rewrite N. 2: { assert (0 <= (- a) * b)%Qc by (apply P; auto; qc). replace (a * b)%Qc with (- ((- a) * b))%Qc by ring. qc. } ring.
  - rewrite (Z a), (N b) by auto. rewrite N. 2: { assert (0 <= a * (- b))%Qc by (apply P; auto; qc). replace (a * b)%Qc with (- (a * (- b)))%Qc by ring. qc. } ring.
  - rewrite (Z a), (Z b) by auto. apply Z. apply P; auto.
Qed.

(** If infer stops because the accuracy is reached, value() is as close to the best value as the parameters demand. *)
Theorem C53_accuracy : forall gm mx p cs st c st' x, wf_gmv gm -> sensible gm (p_id p) -> Forall (exact_solver mx) (cs ++ [c]) -> after gm mx p cs st -> infer gm mx p c st = Ret (st', true) ->
  best mx gm x -> exists v b, dd_value st' = Some v /\ dd_bound st' = Some b /\ bounds mx b (energy gm x) /\ bounds mx (energy gm x) v /\
    ((Qc_abs (v - energy gm x) <= p_abs p)%Qc \/ (Qc_abs (v - energy gm x) <= p_rel p * Qc_abs v)%Qc).
Proof.
  intros gm mx p cs st c st' x WF SE EX AF E [LX BX]. assert (AF' := after_app gm mx p cs c st _ AF E). cbn [fst] in AF'. assert (VE : forall c, exact_solver mx c -> valid_solver c). { intros c' H it' m g W. destruct (H it' m g W) as [y [Q [L _]]]. eauto. }
  assert (VS : Forall valid_solver (cs ++ [c])) by (revert EX; apply Forall_impl; auto). assert (CV : converged p (acc_value (dd_upper st')) (acc_value (dd_neg_lower st')) = true).
  { assert (VS' := VS). apply Forall_app in VS'. destruct VS' as [VS1 VS2]. inversion VS2 as [|? ? V _]; subst. destruct (after_ind gm mx p cs st (fun _ => True) WF SE VS1 AF) as [d [_ [U [F _]]]]; auto. destruct U as [D [O [N _]]]. unfold infer in E.
    destruct (loop_ind gm WF d D O N (fun _ => True) mx p c V) with (n := p_iterations p) (it := 0) (st := st) as [s1 [b [E1 [_ [_ [C _]]]]]]; auto. rewrite E in E1. injection E1 as <- <-. auto. }
  unfold converged in CV. destruct (acc_value (dd_upper st')) as [v|] eqn:Ev; [|discriminate]. destruct (acc_value (dd_neg_lower st')) as [l|] eqn:El; [|discriminate]. assert (Eb : dd_bound st' = Some (- l)%Qc) by (unfold dd_bound; rewrite El; auto).
  destruct (C53_bound gm mx p (cs ++ [c]) st' (- l)%Qc WF SE EX AF' Eb) as [B1 B2]. destruct (C53_value gm mx p (cs ++ [c]) st' WF SE VS AF') as [[[Q _]|[LA EA]] _]. { unfold dd_value in Q. congruence. }
  assert (Ev' : dd_value st' = Some v) by exact Ev. rewrite Ev' in EA. injection EA as EA. exists v, (- l)%Qc. assert (X1 := B1 x LX). assert (X2 : bounds mx (energy gm x) v) by (rewrite EA; auto). split; auto. split; auto. split; auto. split; auto.
  set (e := energy gm x) in *. assert (AB : (Qc_abs (v - e) <= Qc_abs (v + l))%Qc).
  { clear - X1 X2. unfold Qc_abs. destruct (Qc_lt (v - e) 0) eqn:A1; destruct (Qc_lt (v + l) 0) eqn:A2; try apply Qc_lt_true in A1; try apply Qc_lt_true in A2; try apply Qc_lt_false in A1; try apply Qc_lt_false in A2; destruct mx; cbn in X1, X2; qc. }
  apply orb_prop in CV. destruct CV as [CV|CV].
  - left. apply Bool.negb_true_iff, Qc_lt_false in CV. apply (Qcle_trans _ _ _ AB CV).
  - right. destruct (Qc_eq_dec v 0) as [|NZ]; [discriminate|]. apply Bool.negb_true_iff, Qc_lt_false in CV. apply (Qcle_trans _ _ _ AB). replace (v + l)%Qc with ((v + l) / v * v)%Qc by (field; auto). rewrite Qc_abs_mult. apply Qcmult_le_compat_r; auto.
    unfold Qc_abs. destruct (Qc_lt v 0) eqn:A1; [apply Qc_lt_true in A1|apply Qc_lt_false in A1]; auto. apply Qclt_le_weak in A1. qc.
Qed.

Lemma like_inv : forall gm d st bs, INV gm d st -> Forall2 like (dd_blocks st) bs -> INV gm d (with_duals st bs).
Proof.
  intros gm d st bs I LK. destruct I as [I1 I2 I3 I4]. constructor; cbn; auto. clear - LK I4. unfold good_blocks in *. revert bs LK. induction I4 as [|x B l bb G1 G2 IH]; intros bs LK; inversion LK as [|? B' ? bs' L1 L2]; subst; constructor; auto. destruct L1 as [L3 [L4 [L5 [L6 L7]]]]. destruct G1 as [A1 [A2 [A3 [A4 A5]]]].
  split; [congruence|]. split; [congruence|]. split; [congruence|]. rewrite <- A2. split; auto. intros o. rewrite (qsum_nth _ (fun t => nth o t 0%Qc) (b_duals B') []). apply L7.
Qed.

(** Every variable with several copies has a table of dual variables, over its labels, for every copy. *)
Theorem C53_coupling : forall gm mx p cs st v, wf_gmv gm -> sensible gm (p_id p) -> Forall valid_solver cs -> after gm mx p cs st -> 1 < length (nth v (d_vl (dd_dec st)) []) ->
  exists B, In B (dd_blocks st) /\ b_shape B = [nth v (v_labels gm) 0] /\ length (b_duals B) = length (b_subs B) /\ Forall (fun t => length t = nth v (v_labels gm) 0) (b_duals B) /\
    forall m k, copy_of (dd_dec st) v m k -> exists s, In s (b_subs B) /\ s_model s = m /\ s_idx s = [k].
Proof.
  intros gm mx p cs st v WF SE VS AF. destruct (after_ind gm mx p cs st (fun _ => True) WF SE VS AF) as [d [ED [U [F _]]]]; auto. rewrite (iv_dec _ _ _ (fl_inv _ _ _ F)). intros LV. destruct (decompose_ok gm (p_id p) WF SE) as [d' [E' [_ CP]]]. rewrite ED in E'. injection E' as <-.
  destruct U as [D _]. destruct (CP v LV) as [l [HL HC]]. assert (LL : 1 < length l).
  { destruct (nth v (d_vl d) []) as [|[m1 k1] [|[m2 k2] t]] eqn:EV; cbn in LV; try lia. assert (ND := dc_once _ _ _ D v). rewrite EV in ND. inversion ND as [|? ? ND1 _]; subst.
    destruct (HC m1 k1) as [s1 [I1 [A1 B1]]]. { unfold copy_of. rewrite EV. left. auto. } destruct (HC m2 k2) as [s2 [I2 [A2 B2]]]. { unfold copy_of. rewrite EV. right. left. auto. }
    destruct l as [|x [|y l]]; cbn; try lia. { destruct I1. } destruct I1 as [<-|[]]. destruct I2 as [<-|[]]. exfalso. apply ND1. left. congruence. }
  assert (G : exists g, In g (groups gm d) /\ g_vars g = [v] /\ g_subs g = l).
  { destruct HL as [[f [Hf [E1 ->]]]|HL].
    - exists (f_group gm d f). split. { unfold groups. apply in_app_iff. left. apply in_map. apply in_seq. rewrite map_length in Hf. lia. } split; auto.
    - exists (e_group ([v], l)). split; auto. unfold groups. apply in_app_iff. right. apply in_map. auto. }
  destruct G as [g [Ig [Eg Es]]]. assert (IS : In (l, [lab gm v]) (specs gm (groups gm d))).
  { unfold specs. apply in_flat_map. exists g. split; auto. unfold spec_of, g_has, has_block. rewrite Eg, Es. destruct (Nat.ltb_spec 1 (length l)); [|lia]. cbn. left. auto. }
  assert (GB := iv_blocks _ _ _ (fl_inv _ _ _ F)). unfold good_blocks in GB. clear - GB IS HC. induction GB as [|x B xs bs G1 G2 IH]; [destruct IS|]. destruct IS as [->|IS].
  - exists B. destruct G1 as [A1 [A2 [A3 [A4 _]]]]. cbn [fst snd] in *. split; [left; auto|]. split; auto. split; [congruence|]. split. { revert A4. apply Forall_impl. intros t ->. unfold size_of. cbn. unfold lab. lia. } rewrite A1. auto.
  - destruct (IH IS) as [B' [I R]]. exists B'. split; [right; auto|auto].
Qed.
(** The value of a submodel is linear in the dual variables: every table adds its entry for the labels of its copy. *)
Theorem C53_linear : forall gm mx p cs st bs y, wf_gmv gm -> sensible gm (p_id p) -> Forall valid_solver cs -> after gm mx p cs st -> Forall2 like (dd_blocks st) bs ->
  total_of gm (with_duals st bs) y = (total_of gm st y + sumq (fun P => sumq (fun i =>
    let s := nth i (b_subs (fst P)) (mkSub 0 None []) in let o := index_of (b_shape (fst P)) (at_vars (y (s_model s)) (s_idx s)) in
    nth o (nth i (b_duals (snd P)) []) 0 - nth o (nth i (b_duals (fst P)) []) 0) (seq 0 (length (b_duals (fst P))))) (combine (dd_blocks st) bs))%Qc.
Proof.
  intros gm mx p cs st bs y WF SE VS AF LK. destruct (after_ind gm mx p cs st (fun _ => True) WF SE VS AF) as [d [_ [U [F _]]]]; auto. destruct U as [D [O [N _]]]. assert (I := fl_inv _ _ _ F). assert (RI := like_inv gm d st bs I LK). set (states := map y (seq 0 (d_nm d))).
  assert (SN : forall m, m < d_nm d -> nth m states [] = y m). { intros m Hm. unfold states. rewrite (nth_indep _ [] (y 0)) by (rewrite map_length, seq_length; auto). rewrite map_nth, seq_nth by auto. auto. }
  assert (T : forall s, dd_dec s = d -> total_of gm s y = sum_states gm d s states). { intros s E. unfold total_of, sum_states. rewrite E. apply (qsum_ext _ (fun m => energy (sub_model gm s m) (y m))). intros m Hm. apply in_seq in Hm. rewrite SN by lia. auto. }
  rewrite (T st) by apply (iv_dec _ _ _ I). rewrite (T (with_duals st bs)) by apply (iv_dec _ _ _ RI). rewrite !(total_parts gm WF d D O) by auto. cbn [dd_blocks with_duals]. rewrite <- Qcplus_assoc. f_equal.
  assert (GB := iv_blocks _ _ _ I). unfold good_blocks in GB. match goal with |- _ = (_ + @sumq ?A ?f ?l)%Qc => change (@sumq A f l) with (@qsum A f l) end. clear - GB LK SN D. assert (IN : forall x, In x (specs gm (groups gm d)) -> In x (specs gm (groups gm d))) by auto. revert IN GB. generalize (specs gm (groups gm d)) at 1 3. intros l IN GB. revert bs LK. induction GB as [|x B l bb G1 G2 IH]; intros bs LK; inversion LK as [|? B' ? bs' L1 L2]; subst. { reflexivity. }
  cbn [combine]. rewrite !qsum_cons. rewrite (IH ltac:(intros; apply IN; right; auto) bs' L2). cbn [fst snd]. match goal with |- context [@sumq nat ?f (seq 0 (length (b_duals B)))] => change (@sumq nat f (seq 0 (length (b_duals B)))) with (@qsum nat f (seq 0 (length (b_duals B)))) end.
  assert (Q : dpart states B' = (dpart states B + qsum (fun i => let s := nth i (b_subs B) (mkSub 0 None []) in let o := index_of (b_shape B) (at_vars (y (s_model s)) (s_idx s)) in nth o (nth i (b_duals B') []) 0 - nth o (nth i (b_duals B) []) 0) (seq 0 (length (b_duals B))))%Qc).
  { destruct L1 as [L3 [L4 [L5 _]]]. unfold dpart. rewrite L5, <- qsum_plus. apply qsum_ext. intros i J. apply in_seq in J. destruct G1 as [A1 [A2 [A3 _]]]. destruct (specs_in gm d x ltac:(apply IN; left; auto)) as [g [Ig [_ Ex]]]. assert (SG : b_subs B = g_subs g) by (rewrite A1, Ex; auto).
    destruct (group_ok gm d D g (nth i (b_subs B) nosub) Ig) as [Hm _]. { rewrite SG. apply nth_In. rewrite <- SG, A1, <- A3. lia. } unfold off_of, tab. cbv zeta. rewrite L3, L4. unfold nosub in *. rewrite (SN _ Hm). ring. }
  rewrite Q. cbv zeta. ring.
Qed.

(** The subgradient method: with nonnegative step sizes [s], after [n] iterations bound() misses the bound [b'] that any other choice of
    dual variables offers by at most (distance^2 + tables * sum of s^2) / (2 * sum of s). *)
Theorem C53_convergence : forall gm mx p cs st c s bs b' st', wf_gmv gm -> sensible gm (p_id p) -> Forall valid_solver (cs ++ [c]) -> after gm mx p cs st ->
  (forall it st, c_step c it st = s it) -> (forall it, 0 <= s it)%Qc -> (forall it, c_stop c it = false) ->
  Forall2 like (dd_blocks st) bs ->
  (forall y, (forall m, m < d_nm (dd_dec st) -> labeling (sub_model gm (with_duals st bs) m) (y m)) -> bounds mx b' (total_of gm (with_duals st bs) y)) ->
  0 < p_iterations p -> infer gm mx p c st = Ret (st', false) ->
  exists b, dd_bound st' = Some b /\
    ((1 + 1) * sumq s (seq 0 (p_iterations p)) * (if mx then b - b' else b' - b) <= distance2 (dd_blocks st) bs + tables (dd_blocks st) * sumq (fun it => square (s it)) (seq 0 (p_iterations p)))%Qc.
Proof.
  intros gm mx p cs st c s bs b' st' WF SE VS AF SS SP NS LK BD IT E. apply Forall_app in VS. destruct VS as [VS V]. inversion V as [|? ? Vc _]; subst. destruct (after_ind gm mx p cs st (fun _ => True) WF SE VS AF) as [d [_ [U [F _]]]]; auto. destruct U as [D [O [N _]]]. assert (I := fl_inv _ _ _ F).
  assert (RI := like_inv gm d st bs I LK).
  destruct (loop_bound gm WF d D O N mx p c s (with_duals st bs) b' Vc SS SP NS RI) with (n := p_iterations p) (it := 0) (st := st) (st' := st') as [_ [H1 H2]]; auto.
  - intros states [S1 S2]. specialize (BD (fun m => nth m states [])). unfold total_of in BD. cbn [dd_dec with_duals] in BD. rewrite (iv_dec _ _ _ I) in BD. apply BD. auto.
  - destruct (H1 IT) as [b Eb]. exists b. split; auto. exact (H2 b Eb).
Qed.

(** ** An exact solver: Bruteforce *)
Definition AdderO : oper (option Qc) :=
  mkOper (Some 0%Qc) (fun a b => match a, b with Some x, Some y => Some (x + y)%Qc | _, _ => None end) (fun a b => match a, b with Some x, Some y => Some (y - x)%Qc | _, _ => None end).
Definition BestO (mx : bool) : accum (option Qc) :=
  mkAccum None None (oop3 mx) (oop3 (negb mx)) (obop mx) (obop (negb mx)).
Definition lifted (g : gmv Qc) : gmv (option Qc) := mkGmv (v_labels g) (map (fun fc => (fst fc, fun c => Some (snd fc c))) (v_factors g)).
Definition by_bruteforce (mx : bool) (g : gmv Qc) : outcome (list nat) :=
  b <- bf_new (option Qc) AdderO (BestO mx) (lifted g) ;;
  r <- bf_infer (option Qc) AdderO false (BestO mx) (lifted g) (rounds (lifted g)) (fun _ => false) b ;; Ret (bf_arg (fst r)).
Lemma lifted_total : forall g x, total AdderO (lifted g) x = Some (energy g x).
Proof.
  intros g x. unfold total, energy, total, lifted. cbn [v_factors o_neutral AdderO AdderQ]. generalize 0%Qc. induction (v_factors g) as [|fc l IH]; intros a; cbn [map fold_left fst snd]; auto. rewrite <- IH. auto.
Qed.
Theorem C53_bruteforce : forall mx step stop, exact_solver mx (mkCall (fun _ _ g => by_bruteforce mx g) step stop).
Proof.
  intros mx step stop it m g W. cbn [c_solve]. unfold by_bruteforce.
  assert (IR : forall a, better mx a a = false). { intros a. unfold better. destruct mx; apply Qc_lt_false; apply Qcle_refl. }
  assert (TR : forall a b c, better mx a b = true -> better mx b c = true -> better mx a c = true). { intros a b c. unfold better. destruct mx; rewrite !Qc_lt_true; intros; qc. }
  assert (NT : forall a b c, better mx a b = false -> better mx b c = false -> better mx a c = false). { intros a b c. unfold better. destruct mx; rewrite !Qc_lt_false; intros; qc. }
  assert (MO : forall a b c, better mx (c + a)%Qc (c + b)%Qc = better mx a b). { intros a b c. destruct (better mx a b) eqn:E; unfold better in *; destruct mx; rewrite ?Qc_lt_true, ?Qc_lt_false in *; qc. }
  destruct (C17_optimal (option Qc) AdderO false (BestO mx) (lifted g) (fun a => exists q, a = Some q)) with (fuel := rounds (lifted g)) (ops := @nil bop_) as [b [b' [tr [E1 [E2 [[L O] _]]]]]].
  - constructor; cbn; eauto; try (intros a b [x ->] [y ->]; eauto; f_equal; ring).
    + intros a b c [x ->] [y ->] [z ->]. f_equal. ring.
    + intros a [x ->]. f_equal. ring.
  - constructor; cbn.
    + intros a [x ->]. apply IR.
    + intros a b c [x ->] [y ->] [z ->]. apply TR.
    + intros a b c [x ->] [y ->] [z ->]. apply NT.
    + intros a b c [x ->] [y ->] [z ->]. apply MO.
  - constructor; cbn.
    + intros a b [x ->] [y ->]. unfold oop3, obop. destruct (better mx x y); split; auto; discriminate.
    + intros a [x ->]. auto.
  - destruct W as [W1 W2]. split; auto. apply Forall_map. auto.
  - apply Forall_map. apply Forall_forall. intros fc _ x _. cbn. eauto.
  - auto.
  - cbn [foldM] in E1. destruct (bf_new _ _ _ _) as [b0| | |] eqn:EN; cbn [bind] in E1; try discriminate. injection E1 as ->. cbn [bind]. rewrite E2. cbn [bind fst]. eexists. split; [reflexivity|]. split; auto. intros y Ly. specialize (O y Ly). rewrite !lifted_total in O. cbn in O. apply better_false in O. auto.
Qed.

(** ** Examples *)
(** Three variables with two labels; each pair costs one if the labels are equal; label one of the first variable costs two. *)
Definition ex_equal (c : list nat) : Qc := match c with [a; b] => if a =? b then 1%Qc else 0%Qc | _ => 0%Qc end.
Definition ex_unary (c : list nat) : Qc := match c with [S _] => (1 + 1)%Qc | _ => 0%Qc end.
Definition ex_gm : gmv Qc := mkGmv [2; 2; 2] [([0], ex_unary); ([0; 1], ex_equal); ([0; 2], ex_equal); ([1; 2], ex_equal)].
Definition ex_params (i : decomposition_id) : dd_params := mkParams i 4 0 0 true.
Definition ex_call (mx : bool) : call := mkCall (fun _ _ g => by_bruteforce mx g) (fun it _ => 1 / Qc_of (S it))%Qc (fun _ => false).
Definition ex_show (r : outcome dd) : option (option Q * option Q * list nat * list (list nat)) :=
  match r with Ret st => Some (option_map this (dd_value st), option_map this (dd_bound st), dd_arg st, dd_states st) | _ => None end.
Example ex_wf : wf_gmv ex_gm.
Proof. split; repeat constructor; cbn; lia. Qed.
Definition ex_run (i : decomposition_id) (mx : bool) := ex_show (st <- dd_new ex_gm (ex_params i) ;; dd_run ex_gm mx (ex_params i) st [ex_call mx]).
Example ex_sensible : sensible ex_gm TREE /\ sensible ex_gm SPANNINGTREES /\ sensible ex_gm (BLOCKS 2) /\ sensible ex_gm (KFANS 1) /\ sensible ex_gm (MANUAL [[0; 1]; [2; 3]]) /\
  sensible ex_gm (MANUALVARCLOSE [[0]; [1; 2]]) /\ sensible ex_gm (MANUALVAROPEN [[0; 1; 2]; [0]]).
Proof.
  cbn. split; auto. split; [discriminate|]. split; [lia|]. split. { split; [lia|]. split; [lia|]. repeat constructor. } split. { split; [discriminate|]. split; [repeat constructor|]. intros f Hf. destruct f as [|[|[|[|f]]]]; [exists [0; 1]|exists [0; 1]|exists [2; 3]|exists [2; 3]|lia]; cbn; auto. }
  split. { split. { split; [discriminate|]. repeat constructor; cbn; intuition lia. } intros v Hv. destruct v as [|[|[|v]]]; [exists [0]|exists [1; 2]|exists [1; 2]|lia]; cbn; auto. }
  split. { split; [discriminate|]. repeat constructor; cbn; intuition lia. } repeat constructor; exists [0; 1; 2]; (split; [left; auto|]); intros v I; cbn in *; tauto.
Qed.
(** Spanning trees, four iterations with steps 1, 1/2, 1/3 and 1/4: the bound is not tight, as the model is not a tree. *)
Example ex_spanning : ex_run SPANNINGTREES false = Some (Some 1%Q, Some (1 # 2)%Q, [0; 1; 0], [[0; 1; 1]; [0; 0; 1]]). Proof. vm_compute. reflexivity. Qed.
Example ex_blocks : ex_run (BLOCKS 2) false = Some (Some 1%Q, Some 1%Q, [0; 1; 0], [[0; 1; 0]; [0; 1; 0]]). Proof. vm_compute. reflexivity. Qed.
Example ex_blocks_max : ex_run (BLOCKS 2) true = Some (Some 5%Q, Some 5%Q, [1; 1; 1], [[1; 1; 1]; [1; 1; 1]]). Proof. vm_compute. reflexivity. Qed.
Example ex_kfans : ex_run (KFANS 1) false = Some (Some 1%Q, Some (2 # 3)%Q, [0; 1; 1], [[1; 0; 0]; [0; 1; 0]; [0; 0; 1]]). Proof. vm_compute. reflexivity. Qed.
Example ex_manual : ex_run (MANUAL [[0; 1]; [2; 3]]) false = Some (Some 1%Q, Some 1%Q, [0; 0; 1], [[0; 0]; [0; 1; 0]]). Proof. vm_compute. reflexivity. Qed.
(** The loop ends with convergence for blocks and without for spanning trees. *)
Definition ex_flag (i : decomposition_id) : outcome bool := st <- dd_new ex_gm (ex_params i) ;; r <- infer ex_gm false (ex_params i) (ex_call false) st ;; Ret (snd r).
Example ex_flags : ex_flag (BLOCKS 2) = Ret true /\ ex_flag SPANNINGTREES = Ret false. Proof. split; vm_compute; reflexivity. Qed.
Example ex_steps : forall it, (0 <= c_step (ex_call false) it (mkDD (dec_new 0 0 0) [] [] [] [] [] (mkAcc None []) (mkAcc None [])))%Qc.
Proof. intros it. cbn [c_step ex_call]. assert (P := Qc_of_pos (S it) ltac:(lia)). apply Qclt_le_weak. unfold Qcdiv. rewrite Qcmult_1_l. destruct (Qclt_le_dec 0 (/ Qc_of (S it))) as [Q|Q]; auto. exfalso. assert (NZ : Qc_of (S it) <> 0%Qc) by (intros E; rewrite E in P; apply (Qclt_not_eq _ _ P); auto).
  assert (H : (/ Qc_of (S it) * Qc_of (S it) <= 0 * Qc_of (S it))%Qc) by (apply Qcmult_le_compat_r; auto; apply Qclt_le_weak; auto). rewrite Qcmult_comm, Qcmult_inv_r in H by auto. rewrite Qcmult_0_l in H. apply H. reflexivity. Qed.
(** the dual variables of spanning trees: the theorem about convergence can compare with those at the start *)
Example ex_duals : exists st, dd_new ex_gm (ex_params SPANNINGTREES) = Ret st /\ length (dd_blocks st) = 3 /\ Forall2 like (dd_blocks st) (dd_blocks st).
Proof. eexists. split; [vm_compute; reflexivity|]. split; [reflexivity|]. repeat constructor; cbn; intros o; destruct o as [|[|[|o]]]; reflexivity. Qed.

(** ** What does not hold *)
(** Without submodels (spanning trees of a model without factors) infer reads modelWithSameVariables_[0] out of bounds. *)
Theorem C53_no_submodel_refuted : exists gm p st, wf_gmv gm /\ p_id p = SPANNINGTREES /\ dd_new gm p = Ret st /\ infer gm false p (ex_call false) st = Undef.
Proof.
  exists (mkGmv [2] []), (ex_params SPANNINGTREES), (match dd_new (mkGmv [2] []) (ex_params SPANNINGTREES) with Ret st => st | _ => mkDD (dec_new 0 0 0) [] [] [] [] [] (mkAcc None []) (mkAcc None []) end).
  split. { split; repeat constructor. } split; [reflexivity|]. split; vm_compute; reflexivity.
Qed.
(** Sets of factors that do not cover the model are accepted (the check is an assertion): bound() is then no bound. *)
Theorem C53_uncovered_refuted : exists gm p st v b, wf_gmv gm /\ Forall (Forall (fun f => f < length (v_factors gm))) [[0; 1]; [2]] /\ p_id p = MANUAL [[0; 1]; [2]] /\ after gm true p [ex_call true] st /\
  dd_value st = Some v /\ dd_bound st = Some b /\ (b < v)%Qc.
Proof.
  destruct (dd_new ex_gm (ex_params (MANUAL [[0; 1]; [2]]))) as [st0| | |] eqn:E0; try (vm_compute in E0; discriminate).
  destruct (dd_run ex_gm true (ex_params (MANUAL [[0; 1]; [2]])) st0 [ex_call true]) as [st| | |] eqn:E1.
  - assert (S : ex_run (MANUAL [[0; 1]; [2]]) true = Some (Some 5%Q, Some 4%Q, [1; 1; 1], [[1; 1]; [1; 1]])) by (vm_compute; reflexivity). unfold ex_run in S. rewrite E0 in S. cbn [bind] in S. rewrite E1 in S. cbn [ex_show] in S.
    destruct (dd_value st) as [v|] eqn:EV; [|discriminate]. destruct (dd_bound st) as [b|] eqn:EB; [|discriminate]. cbn [option_map] in S. injection S as S1 S2 _ _. exists ex_gm, (ex_params (MANUAL [[0; 1]; [2]])), st, v, b. split; [apply ex_wf|]. split; [repeat constructor|]. split; auto. split. { exists st0. auto. } split; auto. split; auto.
    unfold Qclt. rewrite S1, S2. reflexivity.
  - assert (S : ex_run (MANUAL [[0; 1]; [2]]) true = Some (Some 5%Q, Some 4%Q, [1; 1; 1], [[1; 1]; [1; 1]])) by (vm_compute; reflexivity). unfold ex_run in S. rewrite E0 in S. cbn [bind] in S. rewrite E1 in S. discriminate.
  - assert (S : ex_run (MANUAL [[0; 1]; [2]]) true = Some (Some 5%Q, Some 4%Q, [1; 1; 1], [[1; 1]; [1; 1]])) by (vm_compute; reflexivity). unfold ex_run in S. rewrite E0 in S. cbn [bind] in S. rewrite E1 in S. discriminate.
  - assert (S : ex_run (MANUAL [[0; 1]; [2]]) true = Some (Some 5%Q, Some 4%Q, [1; 1; 1], [[1; 1]; [1; 1]])) by (vm_compute; reflexivity). unfold ex_run in S. rewrite E0 in S. cbn [bind] in S. rewrite E1 in S. discriminate.
Qed.
Print Assumptions C53_total. Print Assumptions C53_reparametrization. Print Assumptions C53_value. Print Assumptions C53_bound. Print Assumptions C53_iteration. Print Assumptions C53_agreement.
Print Assumptions C53_accuracy. Print Assumptions C53_coupling. Print Assumptions C53_linear. Print Assumptions C53_convergence. Print Assumptions C53_bruteforce. Print Assumptions C53_no_submodel_refuted. Print Assumptions C53_uncovered_refuted.
