(** Proofs about dual decomposition: the submodels together are the model. *)
From Coq Require Import ZArith QArith Qcanon Sorted.
From Verif Require Import Base Values GmView GmViewSpec GmViewProofs ShapeSpec ShapeProofs UtilModel ConstraintModel ConstraintSpec ConstraintProofs ConstraintCounts MpModel DecompModel DecompSpec DecompProofs DecompReorder DecompBuild DualDecompModel DualDecompSpec DualDecompProofs.
Open Scope nat_scope.

Lemma in_shape_nth : forall sh x, in_shape sh x <-> length x = length sh /\ forall k, k < length sh -> nth k x 0 < nth k sh 0.
Proof.
  intros sh. induction sh as [|s sh IH]; intros x; split.
  - intros H. inversion H. subst. split; auto. cbn. lia.
  - intros [H _]. destruct x; [constructor|discriminate].
  - intros H. inversion H as [|a ? x' ? H1 H2]; subst. apply IH in H2. destruct H2 as [L N]. cbn [length]. split; [lia|]. intros [|k] Hk; cbn [nth]; auto. apply N. lia.
  - intros [L N]. destruct x as [|a x]; [discriminate|]. constructor. { apply (N 0). cbn. lia. } apply IH. cbn in L. split; [lia|]. intros k Hk. apply (N (S k)). cbn. lia.
Qed.
Lemma qsum_nth : forall A (f : A -> Qc) (l : list A) dflt, qsum (fun i => f (nth i l dflt)) (seq 0 (length l)) = qsum f l.
Proof. intros A f l dflt. induction l as [|a l IH]; auto. cbn [length seq]. rewrite !qsum_cons. cbn [nth]. f_equal. rewrite <- IH. rewrite <- seq_shift, qsum_map. auto. Qed.

Section Inv.
Variable gm : gmv Qc.
Hypothesis WF : wf_gmv gm.
Notation nv := (length (v_labels gm)).
Notation fs := (map fst (v_factors gm)).
Variable d : dec.
Hypothesis DC : decomposes nv fs d.
Hypothesis OR : ordered d.
Hypothesis CF : forall f, f < length (v_factors gm) -> nth f (d_fl d) [] <> [].
Notation groups := (groups gm d).
Notation specs := (specs gm).
Notation Entries := (entries 0 groups).

Definition zero_sum (D : list (list Qc)) : Prop := forall o, qsum (fun i => nth o (nth i D []) 0%Qc) (seq 0 (length D)) = 0%Qc.
Definition good_block (s : list sub * list nat) (B : block) : Prop :=
  b_subs B = fst s /\ b_shape B = snd s /\ length (b_duals B) = length (fst s) /\ Forall (fun t => length t = size_of (snd s)) (b_duals B) /\ zero_sum (b_duals B).
Definition good_blocks (bs : list block) : Prop := Forall2 good_block (specs groups) bs.

Lemma new_blocks_good : good_blocks (map block_of (specs groups)).
Proof.
  unfold good_blocks. induction (specs groups) as [|s l IH]; cbn [map]; constructor; auto. unfold good_block, block_of, new_block. cbn [b_subs b_shape b_duals]. split; auto. split; auto. rewrite repeat_length. split; auto. split.
  - apply Forall_forall. intros t I. apply repeat_spec in I. subst. apply repeat_length.
  - intros o. apply qsum_zero. intros i I. apply in_seq in I. rewrite repeat_length in I. destruct (nth_in_or_default i (repeat (repeat 0%Qc (size_of (snd s))) (length (fst s))) []) as [J|J].
    + apply repeat_spec in J. rewrite J. destruct (nth_in_or_default o (repeat 0%Qc (size_of (snd s))) 0%Qc) as [K|K]; auto. apply repeat_spec in K. auto.
    + rewrite J. destruct o; auto.
Qed.

(** the labelings that agree with [x] *)
Section At.
Variable x : list nat.
Variable y : nat -> list nat.
Hypothesis R : forall m, m < d_nm d -> restricts d m x (y m).

Lemma at_copies : forall vs m idx, m < d_nm d -> copies_of d vs m idx -> at_vars (y m) idx = at_vars x vs.
Proof. intros vs m idx Hm C. destruct (R m Hm) as [_ H]. unfold at_vars. induction C as [|v k vs idx Hc C IH]; auto. cbn [map]. rewrite (H v k Hc), IH. auto. Qed.

Definition ev (bs : list block) (e : entry) : Qc := view_value gm bs (snd (snd e)) (at_vars (y (fst e)) (fst (snd e))).
Definition fv (f : nat) (c : list nat) : Qc := snd (nth f (v_factors gm) ([], fun _ => 0%Qc)) c.
Definition g_value (g : group) : Qc := match g_factor g with Some f => fv f (at_vars x (g_vars g)) | None => 0%Qc end.

Lemma scaled : forall n (a : Qc), 0 < n -> (Qc_of n * (1 / Qc_of n * a))%Qc = a.
Proof. intros n a H. apply Qc_of_nz in H. field. auto. Qed.
Lemma nth_entry : forall g i, In g groups -> i < length (g_subs g) -> s_model (nth i (g_subs g) nosub) < d_nm d /\ at_vars (y (s_model (nth i (g_subs g) nosub))) (s_idx (nth i (g_subs g) nosub)) = at_vars x (g_vars g).
Proof. intros g i I H. destruct (group_ok gm d DC g (nth i (g_subs g) nosub) I) as [H1 H2]. { apply nth_In. auto. } split; auto. apply at_copies; auto. Qed.

Lemma group_nonempty : forall g f, In g groups -> g_factor g = Some f -> 0 < length (g_subs g).
Proof.
  intros g f I E. unfold DualDecompProofs.groups in I. apply in_app_iff in I. destruct I as [I|I]; apply in_map_iff in I; destruct I as [a [<- F]]; [|discriminate].
  cbn [f_group g_subs snd]. apply in_seq in F. specialize (CF a ltac:(lia)). destruct (nth a (d_fl d) []); [tauto|cbn; lia].
Qed.

Lemma group_sum : forall bs c g, In g groups -> (g_has g = true -> exists B, nth_error bs c = Some B /\ good_block (g_subs g, map (lab gm) (g_vars g)) B) ->
  qsum (ev bs) (g_entries c g) = g_value g.
Proof.
  intros bs c g I H. unfold g_entries, g_value. destruct (g_has g) eqn:E.
  - destruct (H eq_refl) as [B [HB [G1 [G2 [G3 [G4 G5]]]]]]. cbn [fst snd] in *. rewrite qsum_map. set (a := at_vars x (g_vars g)).
    rewrite (qsum_ext _ _ (fun i => (match g_factor g with Some f => 1 / Qc_of (length (g_subs g)) * fv f a | None => 0 end) + nth (index_of (b_shape B) a) (nth i (b_duals B) []) 0)%Qc).
    2: { intros i Hi. apply in_seq in Hi. destruct (nth_entry g i I) as [_ A]; [lia|]. unfold ev, dual_entry. cbn [fst snd]. rewrite A. unfold view_value, g_view. cbn [e_view e_dual]. rewrite (nth_error_nth _ _ (mkBlock [] [] []) HB). cbv zeta. fold a. f_equal. destruct (g_factor g); auto. }
    rewrite qsum_plus. rewrite <- G3 at 2. rewrite G5. rewrite Qcplus_0_r. rewrite qsum_const, seq_length. destruct (g_factor g) as [f|]; [|ring]. apply scaled. apply has_nonempty in E. lia.
  - destruct (g_factor g) as [f|] eqn:EF; [|reflexivity]. rewrite qsum_map. rewrite (qsum_ext _ _ (fun _ => 1 / Qc_of (length (g_subs g)) * fv f (at_vars x (g_vars g)))%Qc).
    2: { intros s J. destruct (group_ok gm d DC g s I J) as [H1 H2]. unfold ev, plain_entry. cbn [fst snd]. rewrite (at_copies (g_vars g)) by auto. unfold view_value, g_view. cbn [e_view e_dual]. rewrite EF. cbn [option_map]. unfold fv. ring. }
    rewrite qsum_const. apply scaled. apply (group_nonempty g f); auto.
Qed.

Lemma entries_sum : forall l pre rest, (forall g, In g l -> In g groups) -> Forall2 good_block (specs l) rest ->
  qsum (ev (pre ++ rest)) (entries (length pre) l) = qsum g_value l.
Proof.
  induction l as [|g l IH]; intros pre rest I G; cbn [entries]. { reflexivity. }
  rewrite qsum_app, qsum_cons. cbn [DualDecompProofs.specs flat_map] in G. f_equal.
  - apply group_sum; [apply I; left; auto|]. intros H. unfold spec_of at 1 in G. rewrite H in G. inversion G as [|? B ? ? G1 G2]; subst. exists B. split; auto. rewrite nth_error_app2, Nat.sub_diag by lia. auto.
  - unfold g_next. unfold spec_of at 1 in G. destruct (g_has g).
    + inversion G as [|? B ? rest' G1 G2]; subst. replace (pre ++ B :: rest') with ((pre ++ [B]) ++ rest') by (rewrite <- app_assoc; auto). replace (S (length pre)) with (length (pre ++ [B])) by (rewrite app_length; cbn; lia). apply IH; auto. intros; apply I; right; auto.
    + apply IH; auto. intros; apply I; right; auto.
Qed.

Lemma value_sum : qsum g_value groups = energy gm x.
Proof.
  unfold DualDecompProofs.groups. rewrite qsum_app, !qsum_map. rewrite (qsum_zero _ _ (d_el d)) by auto. rewrite Qcplus_0_r, energy_sum. rewrite <- (qsum_nth _ _ (v_factors gm) ([], fun _ => 0%Qc)).
  apply qsum_ext. intros f _. unfold g_value. cbn [f_group g_factor g_vars fst snd]. rewrite nth_fst. auto.
Qed.
End At.

Lemma entry_shape : forall l c e, In e (entries c l) -> exists g s, In g l /\ In s (g_subs g) /\ fst e = s_model s /\ fst (snd e) = s_idx s /\ (g_factor g <> None \/ length (g_vars g) <= 1).
Proof.
  induction l as [|g l IH]; intros c e I; cbn [entries] in I; [destruct I|]. apply in_app_iff in I. destruct I as [I|I].
  2: { destruct (IH _ _ I) as [g' [s [H1 H2]]]. exists g', s. split; [right; auto|auto]. }
  exists g. unfold g_entries in I. destruct (g_has g) eqn:H.
  - apply in_map_iff in I. destruct I as [i [<- Hi]]. apply in_seq in Hi. exists (nth i (g_subs g) nosub). split; [left; auto|]. split; [apply nth_In; lia|]. split; auto. split; auto. right. apply has_nonempty. auto.
  - destruct (g_factor g) as [f|] eqn:EF; [|destruct I]. apply in_map_iff in I. destruct I as [s [<- Hs]]. exists s. split; [left; auto|]. split; auto. split; auto. split; auto. left. discriminate.
Qed.

Lemma sorted_copies : forall vs m idx, copies_of d vs m idx -> StronglySorted lt vs -> StronglySorted lt idx.
Proof.
  intros vs m idx C. induction C as [|v k vs idx H C IH]; intros ST; constructor; inversion ST as [|? ? ST1 ST2]; subst; auto.
  clear IH ST ST1. induction C as [|u l vs idx Hu C IH]; constructor; inversion ST2; subst; auto. apply (OR v u m k l); auto.
Qed.
Lemma sorted_short : forall l : list nat, length l <= 1 -> StronglySorted lt l.
Proof. intros [|a [|b l]] H; cbn in H; try lia; repeat constructor. Qed.

Lemma entry_ok : forall e, In e Entries -> fst e < d_nm d /\ StronglySorted lt (fst (snd e)) /\ Forall (fun k => k < nth (fst e) (d_nsv d) 0) (fst (snd e)).
Proof.
  intros e I. destruct (entry_shape _ _ _ I) as [g [s [Ig [Is [-> [-> H]]]]]]. destruct (group_ok gm d DC g s Ig Is) as [H1 H2]. split; auto. split; [|apply (copies_lt gm d DC _ _ _ H2)].
  apply (sorted_copies _ _ _ H2). destruct H as [H|H]; [|apply sorted_short; auto]. unfold DualDecompProofs.groups in Ig. apply in_app_iff in Ig. destruct Ig as [Ig|Ig]; apply in_map_iff in Ig; destruct Ig as [a [<- F]]; [|cbn in H; tauto].
  cbn [f_group g_vars fst snd]. destruct (nth_error fs a) as [vs|] eqn:E. 2: { apply nth_error_None in E. rewrite map_length in E. apply in_seq in F. lia. }
  rewrite (nth_error_nth _ _ _ E). apply nth_error_In in E. apply in_map_iff in E. destruct E as [fc [<- Ifc]]. destruct WF as [W _]. rewrite Forall_forall in W. apply (W fc Ifc).
Qed.

(** ** The invariant of the solver *)
Record INV (st : dd) : Prop := {
  iv_dec : dd_dec st = d;
  iv_labels : filled_with d (dd_labels st) (lab gm);
  iv_factors : dd_factors st = dist d Entries;
  iv_blocks : good_blocks (dd_blocks st) }.

Lemma sub_labels : forall st m, INV st -> m < d_nm d -> length (v_labels (sub_model gm st m)) = nth m (d_nsv d) 0 /\
  forall v k, copy_of d v m k -> nth k (v_labels (sub_model gm st m)) 0 = lab gm v.
Proof. intros st m H Hm. destruct (iv_labels _ H) as [[_ L] F]. cbn [sub_model v_labels]. split; auto. Qed.

Lemma sub_wf : forall st m, INV st -> m < d_nm d -> wf_gmv (sub_model gm st m).
Proof.
  intros st m H Hm. destruct (sub_labels st m H Hm) as [L1 L2]. split.
  - rewrite L1. cbn [sub_model v_factors]. rewrite (iv_factors _ H), (nth_dist d) by auto. apply Forall_forall. intros fc I. apply in_map_iff in I. destruct I as [p [<- I]]. apply in_map_iff in I. destruct I as [e [<- I]]. apply filter_In in I. destruct I as [I E]. apply Nat.eqb_eq in E. subst m.
    cbn [fst]. apply (entry_ok e I).
  - apply Forall_forall. intros s I. apply (In_nth _ _ 0) in I. destruct I as [k [Hk <-]]. rewrite L1 in Hk. destruct (dc_exact _ _ _ DC m k Hm Hk) as [v [C _]]. rewrite (L2 v k C). unfold lab. destruct WF as [_ P]. unfold positive in P. rewrite Forall_forall in P. apply P. apply nth_In. apply (dc_range _ _ _ DC _ _ _ C).
Qed.

Lemma restricts_labeling : forall st m x y, INV st -> m < d_nm d -> labeling gm x -> restricts d m x y -> labeling (sub_model gm st m) y.
Proof.
  intros st m x y H Hm L [R1 R2]. destruct (sub_labels st m H Hm) as [L1 L2]. apply in_shape_nth. split; [lia|]. intros k Hk. rewrite L1 in Hk. destruct (dc_exact _ _ _ DC m k Hm Hk) as [v [C _]].
  rewrite (L2 v k C), (R2 v k C). apply in_shape_nth in L. destruct L as [_ L]. apply L. apply (dc_range _ _ _ DC _ _ _ C).
Qed.

(** Labelings of the submodels that agree with a labeling of the model have its value in total. *)
Lemma sum_energy : forall st x y, INV st -> (forall m, m < d_nm d -> restricts d m x (y m)) ->
  qsum (fun m => energy (sub_model gm st m) (y m)) (seq 0 (d_nm d)) = energy gm x.
Proof.
  intros st x y H R. rewrite <- (value_sum x). transitivity (qsum (ev y (dd_blocks st)) Entries).
  - rewrite <- (qsum_split _ (ev y (dd_blocks st)) fst (d_nm d)). 2: { apply Forall_forall. intros e I. apply (entry_ok e I). }
    apply qsum_ext. intros m Hm. apply in_seq in Hm. rewrite energy_sum. cbn [sub_model v_factors]. rewrite (iv_factors _ H), (nth_dist d) by lia. rewrite !qsum_map. apply qsum_ext. intros e I. apply filter_In in I. destruct I as [_ E]. apply Nat.eqb_eq in E. subst m. reflexivity.
  - apply (entries_sum x y R groups [] (dd_blocks st)); auto. apply (iv_blocks _ H).
Qed.

(** the copies of a labeling *)
Definition pull (x : list nat) (t : list (list nat)) (m : nat) : list nat := map (fun v => nth v x 0) (nth m t []).
Lemma restriction_exists : forall st x, INV st -> exists y, forall m, m < d_nm d -> restricts d m x (y m).
Proof.
  intros st x H. destruct (fill_ok gm d DC (fun v => Ret v) (fun v => v) ltac:(auto) (dd_labels st)) as [t [_ [[T1 T2] T3]]]. { apply (iv_labels _ H). }
  exists (pull x t). intros m Hm. unfold pull. split. { rewrite map_length. auto. } intros v k C. destruct (dc_range _ _ _ DC _ _ _ C) as [_ [_ Hk]].
  rewrite (nth_indep _ 0 (nth 0 x 0)) by (rewrite map_length, T2; auto). rewrite (map_nth (fun v => nth v x 0)). rewrite (T3 v m k C). auto.
Qed.

Lemma init_ok : exists st, dd_init gm d = Ret st /\ INV st /\ dd_same st = repeat TMaybe (d_nm d) /\ length (dd_states st) = d_nm d /\
  dd_upper st = mkAcc None [] /\ dd_neg_lower st = mkAcc None [].
Proof.
  unfold dd_init. rewrite (sub_table_ok _ _ d DC). cbn [bind]. assert (S0 : shaped d (map (fun n => repeat 0 n) (d_nsv d))).
  { split. { rewrite map_length. apply (dc_nm _ _ _ DC). } intros m Hm. rewrite (nth_indep _ [] (repeat 0 0)) by (rewrite map_length, (proj1 (dc_nm _ _ _ DC)); auto). rewrite (map_nth (fun n => repeat 0 n)). apply repeat_length. }
  destruct (fill_ok gm d DC (rd (v_labels gm)) (lab gm)) with (t0 := map (fun n => repeat 0 n) (d_nsv d)) as [t [E F]]; auto. { intros v Hv. apply rd_nth. auto. }
  rewrite E. cbn [bind]. rewrite make_blocks_ok by auto. cbn [bind]. rewrite make_factors_ok; auto; [|apply F]. cbn [bind].
  eexists. split; [reflexivity|]. split. { constructor; cbn; auto. apply new_blocks_good. } cbn [dd_same dd_states dd_upper dd_neg_lower]. rewrite map_length. destruct F as [[F _] _]. auto.
Qed.
End Inv.
