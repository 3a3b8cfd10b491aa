(** Proofs about dual decomposition: the submodels. *)
From Coq Require Import ZArith QArith Qcanon Sorted.
From Verif Require Import Base Values GmView GmViewSpec GmViewProofs ShapeSpec ShapeProofs UtilModel ConstraintModel ConstraintSpec ConstraintProofs ConstraintCounts MpModel DecompModel DecompSpec DecompProofs DecompReorder DecompBuild DualDecompModel DualDecompSpec.
Open Scope nat_scope.

(** ** Sums *)
Definition qsum {A : Type} (f : A -> Qc) (l : list A) : Qc := Qc_sum (map f l).
Lemma qsum_nil : forall A (f : A -> Qc), qsum f [] = 0%Qc. Proof. reflexivity. Qed.
Lemma qsum_cons : forall A (f : A -> Qc) a l, qsum f (a :: l) = (f a + qsum f l)%Qc. Proof. reflexivity. Qed.
Lemma qsum_app : forall A (f : A -> Qc) l1 l2, qsum f (l1 ++ l2) = (qsum f l1 + qsum f l2)%Qc.
Proof. intros. unfold qsum. rewrite map_app, Qc_sum_app. auto. Qed.
Lemma qsum_ext : forall A (f g : A -> Qc) l, (forall a, In a l -> f a = g a) -> qsum f l = qsum g l.
Proof. intros A f g l H. unfold qsum. f_equal. apply map_ext_in. auto. Qed.
Lemma qsum_plus : forall A (f g : A -> Qc) l, qsum (fun a => f a + g a)%Qc l = (qsum f l + qsum g l)%Qc.
Proof. intros A f g. induction l as [|a l IH]; [reflexivity|]. rewrite !qsum_cons, IH. ring. Qed.
Lemma qsum_scale : forall A (f : A -> Qc) c l, qsum (fun a => c * f a)%Qc l = (c * qsum f l)%Qc.
Proof. intros A f c. induction l as [|a l IH]; [rewrite !qsum_nil; ring|]. rewrite !qsum_cons, IH. ring. Qed.
Lemma qsum_opp : forall A (f : A -> Qc) l, qsum (fun a => - f a)%Qc l = (- qsum f l)%Qc.
Proof. intros A f. induction l as [|a l IH]; [rewrite !qsum_nil; ring|]. rewrite !qsum_cons, IH. ring. Qed.
Lemma qsum_zero : forall A (f : A -> Qc) l, (forall a, In a l -> f a = 0%Qc) -> qsum f l = 0%Qc.
Proof. intros A f. induction l as [|a l IH]; intros H; auto. rewrite qsum_cons, (H a), IH; [ring| |left; auto]. intros b I. apply H. right. auto. Qed.
Lemma Qc_of_S : forall n, Qc_of (S n) = (1 + Qc_of n)%Qc.
Proof. intros n. unfold Qc_of. apply Qc_is_canon. rewrite Nat2Z.inj_succ. unfold Z.succ. rewrite Z.add_comm. cbn [this Q2Qc Qcplus]. rewrite !Qred_correct, inject_Z_plus. reflexivity. Qed.
Lemma Qc_of_pos : forall n, 0 < n -> (0 < Qc_of n)%Qc.
Proof. intros n H. unfold Qc_of, Qclt. cbn [this Q2Qc]. rewrite !Qred_correct. change 0%Q with (inject_Z 0). rewrite <- Zlt_Qlt. lia. Qed.
Lemma Qc_of_nz : forall n, 0 < n -> Qc_of n <> 0%Qc.
Proof. intros n H E. apply Qc_of_pos in H. rewrite E in H. discriminate. Qed.
Lemma qsum_const : forall A c (l : list A), qsum (fun _ => c) l = (Qc_of (length l) * c)%Qc.
Proof. intros A c. induction l as [|a l IH]. { rewrite qsum_nil. cbn [length]. change (Qc_of 0) with 0%Qc. ring. } rewrite qsum_cons, IH. cbn [length]. rewrite Qc_of_S. ring. Qed.
Lemma qsum_map : forall A B (g : A -> B) (f : B -> Qc) l, qsum f (map g l) = qsum (fun a => f (g a)) l.
Proof. intros. unfold qsum. rewrite map_map. auto. Qed.
Lemma qsum_le : forall A (f g : A -> Qc) l, (forall a, In a l -> f a <= g a)%Qc -> (qsum f l <= qsum g l)%Qc.
Proof. intros A f g. induction l as [|a l IH]; intros H. { apply Qcle_refl. } rewrite !qsum_cons. apply Qcplus_le_compat; [apply H; left; auto|]. apply IH. intros b I. apply H. right. auto. Qed.
(** a sum over the entries of all submodels *)
Lemma qsum_split : forall A (f : A -> Qc) (key : A -> nat) n l, Forall (fun a => key a < n) l ->
  qsum (fun m => qsum f (filter (fun a => key a =? m) l)) (seq 0 n) = qsum f l.
Proof.
  intros A f key n. induction l as [|a l IH]; intros H. { apply qsum_zero. auto. } inversion H as [|? ? Ha Hl]; subst. rewrite qsum_cons, <- (IH Hl).
  rewrite (qsum_ext _ _ (fun m => (if key a =? m then f a else 0) + qsum f (filter (fun a => key a =? m) l))%Qc).
  2: { intros m _. cbn [filter]. destruct (key a =? m). - rewrite qsum_cons. auto. - ring. }
  rewrite qsum_plus. f_equal. clear - Ha. assert (X : forall s k, qsum (fun m => if key a =? m then f a else 0%Qc) (seq s k) = if (s <=? key a) && (key a <? s + k) then f a else 0%Qc).
  { intros s k. revert s. induction k as [|k IH]; intros s; cbn [seq]. { rewrite qsum_nil. destruct (Nat.leb_spec s (key a)); destruct (Nat.ltb_spec (key a) (s + 0)); auto; lia. }
    rewrite qsum_cons, IH. destruct (Nat.eqb_spec (key a) s).
    - destruct (Nat.leb_spec (S s) (key a)); [lia|]. destruct (Nat.leb_spec s (key a)); [|lia]. destruct (Nat.ltb_spec (key a) (s + S k)); [|lia]. cbn [andb]. ring.
    - destruct (Nat.leb_spec (S s) (key a)); destruct (Nat.leb_spec s (key a)); destruct (Nat.ltb_spec (key a) (S s + k)); destruct (Nat.ltb_spec (key a) (s + S k)); cbn [andb]; try lia; ring. }
  rewrite X. destruct (Nat.ltb_spec (key a) (0 + n)); [auto|lia].
Qed.

(** ** Evaluation *)
Lemma energy_sum : forall (g : gmv Qc) x, energy g x = qsum (fun fc => snd fc (at_vars x (fst fc))) (v_factors g).
Proof.
  intros g x. unfold energy, total. cbn [o_op o_neutral AdderQ]. assert (X : forall l a, fold_left (fun acc (fc : list nat * (list nat -> Qc)) => snd fc (at_vars x (fst fc)) + acc)%Qc l a = (a + qsum (fun fc => snd fc (at_vars x (fst fc))) l)%Qc).
  { induction l as [|fc l IH]; intros a; cbn [fold_left]. { rewrite qsum_nil. ring. } rewrite IH, qsum_cons. ring. }
  rewrite X. ring.
Qed.

Lemma evaluate_energy : forall (g : gmv Qc) x, wf_gmv g -> labeling g x -> v_evaluate Qc AdderQ g x = Ret (energy g x).
Proof. intros g x W L. apply v_evaluate_total; auto. apply labeling_length. auto. Qed.

Section Build.
Variable gm : gmv Qc.
Hypothesis WF : wf_gmv gm.
Notation nv := (length (v_labels gm)).
Notation fs := (map fst (v_factors gm)).
Variable d : dec.
Hypothesis DC : decomposes nv fs d.
Hypothesis OR : ordered d.

(** ** Tables *)
Definition shaped (t : list (list nat)) : Prop := length t = d_nm d /\ forall m, m < d_nm d -> length (nth m t []) = nth m (d_nsv d) 0.
Definition filled_with (t : list (list nat)) (g : nat -> nat) : Prop := shaped t /\ forall v m k, copy_of d v m k -> nth k (nth m t []) 0 = g v.

Lemma copy_fun : forall u v m k, copy_of d u m k -> copy_of d v m k -> u = v.
Proof. intros u v m k A B. destruct (dc_range _ _ _ DC _ _ _ A) as [_ [R1 R2]]. destruct (dc_exact _ _ _ DC m k R1 R2) as [w [_ U]]. rewrite <- (U u A), <- (U v B). auto. Qed.

Lemma wr2_ok : forall t m k x, shaped t -> m < d_nm d -> k < nth m (d_nsv d) 0 -> exists t', wr2 t m k x = Ret t' /\ shaped t' /\
  forall m' k', nth k' (nth m' t' []) 0 = if (m =? m') && (k =? k') then x else nth k' (nth m' t []) 0.
Proof.
  intros t m k x [T1 T2] Hm Hk. unfold wr2. rewrite (rd_nth _ t m []) by lia. cbn [bind]. rewrite wr_Ret by (rewrite T2; auto). cbn [bind]. rewrite wr_Ret by lia.
  eexists. split; [reflexivity|]. split.
  - split. { rewrite length_upd. auto. } intros m' Hm'. rewrite nth_upd by lia. destruct (Nat.eq_dec m m') as [<-|]; auto. rewrite length_upd. auto.
  - intros m' k'. rewrite nth_upd by lia. destruct (Nat.eq_dec m m') as [<-|NE].
    + rewrite Nat.eqb_refl. rewrite nth_upd by (rewrite T2; auto). destruct (Nat.eq_dec k k') as [<-|]. { rewrite Nat.eqb_refl. auto. } destruct (Nat.eqb_spec k k'); [tauto|auto].
    + destruct (Nat.eqb_spec m m'); [tauto|auto].
Qed.

Lemma fill_ok : forall value g, (forall v, v < nv -> value v = Ret (g v)) -> forall t0, shaped t0 -> exists t, fill_table gm d value t0 = Ret t /\ filled_with t g.
Proof.
  intros value g HV t0 S0. unfold fill_table, nvar.
  destruct (foldM_seq_ind nat (list (list nat)) (fun n t => shaped t /\ forall v m k, v < n -> copy_of d v m k -> nth k (nth m t []) 0 = g v)
    (fun t v => l <- rd (d_vl d) v ;; foldM (fun t p => x <- value v ;; wr2 t (fst p) (snd p) x) l t) (seq 0 nv) 0 t0) as [t [E [S1 F1]]].
  - split; auto. intros v m k H. lia.
  - intros i v t Hi [S1 F1]. apply nth_error_seq0 in Hi. destruct Hi as [-> Hi]. cbn [plus] in *. rewrite (rd_nth _ (d_vl d) i []) by (rewrite (proj2 (dc_nv _ _ _ DC)); auto). cbn [bind]. rewrite (HV i Hi). cbn [bind].
    assert (X : forall l t, (forall p, In p l -> copy_of d i (fst p) (snd p)) -> shaped t -> (forall v m k, v < i -> copy_of d v m k -> nth k (nth m t []) 0 = g v) ->
      exists t', foldM (fun t p => wr2 t (fst p) (snd p) (g i)) l t = Ret t' /\ shaped t' /\ (forall v m k, v < i -> copy_of d v m k -> nth k (nth m t' []) 0 = g v) /\
        (forall p, In p l \/ nth (snd p) (nth (fst p) t []) 0 = g i -> nth (snd p) (nth (fst p) t' []) 0 = g i)).
    { clear t S1 F1. induction l as [|p l IH]; intros t HP S1 F1; cbn [foldM]. { exists t. split; auto. split; auto. split; auto. intros p [[]|H]. auto. }
      destruct (dc_range _ _ _ DC _ _ _ (HP p (or_introl eq_refl))) as [_ [R1 R2]]. destruct (wr2_ok t _ _ (g i) S1 R1 R2) as [t' [E [S2 G]]]. rewrite E. cbn [bind].
      destruct (IH t') as [t'' [E2 [S3 [F3 G3]]]]; auto. { intros q I. apply HP. right. auto. }
      - intros v m k Hv C. rewrite G. destruct (Nat.eqb_spec (fst p) m) as [<-|]; [|apply F1; auto]. destruct (Nat.eqb_spec (snd p) k) as [<-|]; [|apply F1; auto].
        assert (v = i) by (apply (copy_fun v i (fst p) (snd p)); auto; apply HP; left; auto). lia.
      - exists t''. split; auto. split; auto. split; auto. intros q H. apply G3. rewrite G. destruct (Nat.eqb_spec (fst p) (fst q)) as [E3|]. 2: { destruct H as [[->|H]|H]; auto. congruence. }
        destruct (Nat.eqb_spec (snd p) (snd q)) as [E4|]; cbn [andb]; auto. destruct H as [[->|H]|H]; auto. congruence. }
    destruct (X (nth i (d_vl d) []) t) as [t' [E [S2 [F2 G2]]]]; auto. { intros [m k] I. exact I. }
    exists t'. split; auto. split; auto. intros v m k Hv C. destruct (Nat.eq_dec v i) as [->|]. { apply (G2 (m, k)). left. exact C. } apply F2; auto. lia.
  - rewrite E. exists t. split; auto. split; auto. intros v m k C. apply F1; auto. rewrite seq_length. apply (dc_range _ _ _ DC _ _ _ C).
Qed.

(** ** Factors and subfactors without a factor *)
Definition group : Type := (option nat * list nat * list sub)%type.
Definition g_factor (g : group) : option nat := fst (fst g).
Definition g_vars (g : group) : list nat := snd (fst g).
Definition g_subs (g : group) : list sub := snd g.
Definition f_group (f : nat) : group := (Some f, nth f fs [], nth f (d_fl d) []).
Definition e_group (e : list nat * list sub) : group := (None, fst e, snd e).
Definition groups : list group := map f_group (seq 0 (length (v_factors gm))) ++ map e_group (d_el d).
Definition g_has (g : group) : bool := has_block (g_subs g) (length (g_vars g)).
Definition lab (v : nat) : nat := nth v (v_labels gm) 0.
Definition spec_of (g : group) : list (list sub * list nat) := if g_has g then [(g_subs g, map lab (g_vars g))] else [].
Definition specs (l : list group) : list (list sub * list nat) := flat_map spec_of l.
Definition block_of (s : list sub * list nat) : block := new_block (fst s) (snd s).

Lemma group_ok : forall g s, In g groups -> In s (g_subs g) -> s_model s < d_nm d /\ copies_of d (g_vars g) (s_model s) (s_idx s).
Proof.
  intros g s I J. unfold groups in I. apply in_app_iff in I. destruct I as [I|I]; apply in_map_iff in I.
  - destruct I as [f [<- F]]. apply (dc_factor _ _ _ DC). exact J.
  - destruct I as [[key l] [<- F]]. apply (dc_empty _ _ _ DC key l s); auto.
Qed.
Lemma copies_lt : forall vs m idx, copies_of d vs m idx -> Forall (fun v => v < nv) vs /\ Forall (fun k => k < nth m (d_nsv d) 0) idx.
Proof. intros vs m idx C. induction C as [|v k vs idx H C [I1 I2]]; split; constructor; auto; apply (dc_range _ _ _ DC _ _ _ H). Qed.
Lemma has_nonempty : forall g, g_has g = true -> 1 < length (g_subs g) /\ length (g_vars g) <= 1.
Proof. intros g H. apply andb_true_iff in H. destruct H as [H1 H2]. apply Nat.ltb_lt in H1. apply Nat.leb_le in H2. auto. Qed.
Lemma group_vars : forall g, In g groups -> g_has g = true -> Forall (fun v => v < nv) (g_vars g).
Proof. intros g I H. apply has_nonempty in H. destruct (g_subs g) as [|s t] eqn:E; [cbn in H; lia|]. destruct (group_ok g s I) as [_ C]. { rewrite E. left. auto. } apply (copies_lt _ _ _ C). Qed.
Lemma shape_of_ok : forall vs, Forall (fun v => v < nv) vs -> shape_of gm vs = Ret (map lab vs).
Proof. intros vs H. apply mapM_ok. intros v I. apply rd_nth. rewrite Forall_forall in H. auto. Qed.
Lemma nth_fst : forall f, nth f fs [] = fst (nth f (v_factors gm) ([], fun _ => 0%Qc)).
Proof. intros f. change [] with (fst (@nil nat, fun _ : list nat => 0%Qc)) at 1. apply map_nth. Qed.
Lemma rd_factor : forall f, f < length (v_factors gm) -> rd (v_factors gm) f = Ret (nth f (v_factors gm) ([], fun _ => 0%Qc)).
Proof. intros f H. apply rd_nth. auto. Qed.
Lemma rd_fl : forall f, f < length (v_factors gm) -> rd (d_fl d) f = Ret (nth f (d_fl d) []).
Proof. intros f H. apply rd_nth. rewrite (proj2 (dc_nf _ _ _ DC)), map_length. auto. Qed.

Lemma make_blocks_ok : make_blocks gm d = Ret (map block_of (specs groups)).
Proof.
  unfold make_blocks. assert (X : forall l bs, (forall f, In f l -> f < length (v_factors gm)) -> foldM (factor_block gm d) l bs = Ret (bs ++ map block_of (specs (map f_group l)))).
  { induction l as [|f l IH]; intros bs H; cbn [foldM map]. { cbn. rewrite app_nil_r. auto. }
    assert (F : factor_block gm d bs f = Ret (bs ++ map block_of (spec_of (f_group f)))).
    { unfold factor_block. assert (Hf : f < length (v_factors gm)) by (apply H; left; auto). rewrite rd_fl by auto. cbn [bind]. rewrite rd_factor by auto. cbn [bind].
      unfold spec_of, g_has. cbn [f_group g_vars g_subs fst snd]. rewrite nth_fst. destruct (has_block _ _) eqn:E; [|cbn [map]; rewrite app_nil_r; auto]. rewrite shape_of_ok. { cbn [bind map]. auto. }
      rewrite <- nth_fst in *. apply (group_vars (f_group f)); auto. unfold groups. apply in_app_iff. left. apply in_map. apply in_seq. lia. }
    rewrite F. cbn [bind]. rewrite IH by (intros; apply H; right; auto). cbn [specs flat_map]. rewrite map_app, app_assoc. auto. }
  rewrite X by (intros f I; apply in_seq in I; lia). cbn [bind app]. unfold groups, specs. rewrite flat_map_app, map_app. fold (specs (map f_group (seq 0 (length (v_factors gm))))).
  assert (Y : forall l bs, (forall e, In e l -> In e (d_el d)) -> foldM (empty_block gm) l bs = Ret (bs ++ map block_of (specs (map e_group l)))).
  { induction l as [|e l IH]; intros bs H; cbn [foldM map]. { cbn. rewrite app_nil_r. auto. }
    assert (F : empty_block gm bs e = Ret (bs ++ map block_of (spec_of (e_group e)))).
    { unfold empty_block. unfold spec_of, g_has. cbn [e_group g_vars g_subs fst snd]. destruct (has_block _ _) eqn:E; [|cbn [map]; rewrite app_nil_r; auto]. rewrite shape_of_ok. { cbn [bind map]. auto. }
      apply (group_vars (e_group e)); auto. unfold groups. apply in_app_iff. right. apply in_map. apply H. left. auto. }
    rewrite F. cbn [bind]. rewrite IH by (intros; apply H; right; auto). cbn [specs flat_map]. rewrite map_app, app_assoc. auto. }
  rewrite Y; auto.
Qed.

(** ** The factors of the submodels *)
Definition entry : Type := (nat * (list nat * ventry))%type.
Definition nosub : sub := mkSub 0 None [].
Definition g_view (g : group) : option (nat * Qc) := option_map (fun f => (f, (1 / Qc_of (length (g_subs g)))%Qc)) (g_factor g).
Definition dual_entry (c : nat) (g : group) (i : nat) : entry := let s := nth i (g_subs g) nosub in (s_model s, (s_idx s, mkEntry (g_view g) (Some (c, i)))).
Definition plain_entry (g : group) (s : sub) : entry := (s_model s, (s_idx s, mkEntry (g_view g) None)).
Definition g_entries (c : nat) (g : group) : list entry :=
  if g_has g then map (dual_entry c g) (seq 0 (length (g_subs g)))
  else match g_factor g with Some _ => map (plain_entry g) (g_subs g) | None => [] end.
Definition g_next (c : nat) (g : group) : nat := if g_has g then S c else c.
Fixpoint entries (c : nat) (l : list group) : list entry :=
  match l with [] => [] | g :: t => g_entries c g ++ entries (g_next c g) t end.
Definition dist (E : list entry) : list (list (list nat * ventry)) := map (fun m => map snd (filter (fun e => fst e =? m) E)) (seq 0 (d_nm d)).

Lemma dist_nil : dist [] = repeat [] (d_nm d).
Proof. unfold dist. generalize (d_nm d) at 1 2. intros n. generalize 0. induction n as [|n IH]; intros k; cbn; auto. f_equal. auto. Qed.
Lemma nth_dist : forall E m, m < d_nm d -> nth m (dist E) [] = map snd (filter (fun e => fst e =? m) E).
Proof. intros E m H. unfold dist. rewrite (nth_indep _ [] (map snd (filter (fun e : entry => fst e =? 0) E))) by (rewrite map_length, seq_length; auto). rewrite (map_nth (fun m => map snd (filter (fun e : entry => fst e =? m) E))). rewrite seq_nth by auto. auto. Qed.
Lemma length_dist : forall E, length (dist E) = d_nm d. Proof. intros. unfold dist. rewrite map_length, seq_length. auto. Qed.

Lemma add_factor_ok : forall labels E m idx e, shaped labels -> m < d_nm d -> Forall (fun k => k < nth m (d_nsv d) 0) idx ->
  add_factor labels (dist E) m idx e = Ret (dist (E ++ [(m, (idx, e))])).
Proof.
  intros labels E m idx e [L1 L2] Hm HI. unfold add_factor. rewrite (rd_nth _ labels m []) by lia. cbn [bind]. rewrite (rd_nth _ (dist E) m []) by (rewrite length_dist; auto). cbn [bind]. rewrite L2 by auto.
  assert (X : forallb (fun k => k <? nth m (d_nsv d) 0) idx = true). { apply forallb_forall. rewrite Forall_forall in HI. intros k I. apply Nat.ltb_lt. auto. }
  rewrite X, wr_Ret by (rewrite length_dist; auto). f_equal. apply (nth_ext _ _ [] []). { rewrite length_upd, !length_dist. auto. }
  intros m' H. rewrite length_upd, length_dist in H. rewrite nth_upd by (rewrite length_dist; auto). rewrite (nth_dist (E ++ _)) by auto. rewrite filter_app, map_app. cbn [filter fst].
  destruct (Nat.eq_dec m m') as [<-|NE]. { rewrite Nat.eqb_refl. cbn [map snd]. rewrite nth_dist by auto. auto. } destruct (Nat.eqb_spec m m'); [tauto|]. cbn [map]. rewrite app_nil_r. apply nth_dist. auto.
Qed.

(** adding a list of subfactors *)
Lemma add_list_ok : forall A (l : list A) (step : list (list (list nat * ventry)) -> A -> outcome (list (list (list nat * ventry)))) (ent : A -> entry) E,
  (forall a E, In a l -> step (dist E) a = Ret (dist (E ++ [ent a]))) -> foldM step l (dist E) = Ret (dist (E ++ map ent l)).
Proof.
  intros A l step ent. induction l as [|a l IH]; intros E H; cbn [foldM map]. { rewrite app_nil_r. auto. }
  rewrite (H a E) by (left; auto). cbn [bind]. rewrite IH by (intros; apply H; right; auto). rewrite <- app_assoc. auto.
Qed.
Lemma dual_pointer_ok : forall pre rest g i, g_has g = true -> i < length (g_subs g) ->
  dual_pointer (map block_of (specs (pre ++ g :: rest))) (length (specs pre)) i = Ret (length (specs pre), i).
Proof.
  intros pre rest g i H Hi. unfold dual_pointer, specs. rewrite flat_map_app, map_app. cbn [flat_map]. unfold spec_of at 2. rewrite H. rewrite (rd_Ret _ _ _ (block_of (g_subs g, map lab (g_vars g)))).
  2: { rewrite nth_error_app2 by (rewrite map_length; auto). rewrite map_length, Nat.sub_diag. auto. }
  cbn [bind block_of new_block b_duals fst snd]. rewrite repeat_length. destruct (Nat.ltb_spec i (length (g_subs g))); [auto|lia].
Qed.
Lemma specs_next : forall pre g, length (specs (pre ++ [g])) = g_next (length (specs pre)) g.
Proof. intros pre g. unfold specs. rewrite flat_map_app, app_length. cbn [flat_map]. rewrite app_nil_r. unfold spec_of at 2, g_next. destruct (g_has g); cbn [length]; lia. Qed.

Lemma entry_add : forall labels g s e E, shaped labels -> In g groups -> In s (g_subs g) -> add_factor labels (dist E) (s_model s) (s_idx s) e = Ret (dist (E ++ [(s_model s, (s_idx s, e))])).
Proof. intros labels g s e E SH I J. destruct (group_ok g s I J) as [H1 H2]. apply add_factor_ok; auto. apply (copies_lt _ _ _ H2). Qed.

Lemma dual_adds : forall labels pre g rest E, shaped labels -> groups = pre ++ g :: rest -> g_has g = true ->
  foldM (fun subs i => s <- rd (g_subs g) i ;; p <- dual_pointer (map block_of (specs groups)) (length (specs pre)) i ;; add_factor labels subs (s_model s) (s_idx s) (mkEntry (g_view g) (Some p)))
    (seq 0 (length (g_subs g))) (dist E) = Ret (dist (E ++ g_entries (length (specs pre)) g)).
Proof.
  intros labels pre g rest E SH HG H. assert (I : In g groups) by (rewrite HG; apply in_app_iff; right; left; auto). unfold g_entries. rewrite H. apply add_list_ok. intros i E' Hi. apply in_seq in Hi. rewrite (rd_nth _ (g_subs g) i nosub) by lia. cbn [bind].
  rewrite HG at 1. rewrite dual_pointer_ok by (auto; lia). cbn [bind]. rewrite (entry_add labels g); auto. apply nth_In. lia.
Qed.

Lemma views_ok : forall labels pre f rest E, shaped labels -> f < length (v_factors gm) -> groups = pre ++ f_group f :: rest ->
  add_views gm d (map block_of (specs groups)) labels (dist E, length (specs pre)) f = Ret (dist (E ++ g_entries (length (specs pre)) (f_group f)), g_next (length (specs pre)) (f_group f)).
Proof.
  intros labels pre f rest E SH Hf HG. assert (I : In (f_group f) groups) by (rewrite HG; apply in_app_iff; right; left; auto). unfold add_views. rewrite rd_fl by auto. cbn [bind]. rewrite rd_factor by auto. cbn [bind]. rewrite <- nth_fst.
  change (has_block (nth f (d_fl d) []) (length (nth f fs []))) with (g_has (f_group f)). destruct (g_has (f_group f)) eqn:H.
  - assert (X := dual_adds labels pre (f_group f) rest E SH HG H). cbn [f_group g_subs g_view g_factor option_map fst snd] in X. cbv zeta.
    etransitivity; [apply (f_equal (fun o => bind o (fun subs => Ret (subs, S (length (specs pre)))))); exact X|]. cbn [bind]. unfold g_next. rewrite H. auto.
  - cbv zeta. rewrite (add_list_ok _ (nth f (d_fl d) []) _ (plain_entry (f_group f))). { cbn [bind]. unfold g_next, g_entries. rewrite H. auto. }
    intros s E' J. apply (entry_add labels (f_group f)); auto.
Qed.
Lemma offsets_ok : forall labels pre e rest E, shaped labels -> groups = pre ++ e_group e :: rest ->
  add_offsets (map block_of (specs groups)) labels (dist E, length (specs pre)) e = Ret (dist (E ++ g_entries (length (specs pre)) (e_group e)), g_next (length (specs pre)) (e_group e)).
Proof.
  intros labels pre e rest E SH HG. unfold add_offsets. change (has_block (snd e) (length (fst e))) with (g_has (e_group e)). destruct (g_has (e_group e)) eqn:H.
  - assert (X := dual_adds labels pre (e_group e) rest E SH HG H). cbn [e_group g_subs g_view g_factor option_map fst snd] in X.
    etransitivity; [apply (f_equal (fun o => bind o (fun subs => Ret (subs, S (length (specs pre)))))); exact X|]. cbn [bind]. unfold g_next. rewrite H. auto.
  - unfold g_next, g_entries. rewrite H. cbn [e_group g_factor fst]. rewrite app_nil_r. auto.
Qed.

Lemma make_factors_ok : forall labels, shaped labels -> make_factors gm d (map block_of (specs groups)) labels = Ret (dist (entries 0 groups)).
Proof.
  intros labels SH. unfold make_factors. rewrite <- dist_nil.
  assert (X : forall fl pre E rest, (forall f, In f fl -> f < length (v_factors gm)) -> groups = pre ++ map f_group fl ++ rest ->
    foldM (add_views gm d (map block_of (specs groups)) labels) fl (dist E, length (specs pre)) = Ret (dist (E ++ entries (length (specs pre)) (map f_group fl)), length (specs (pre ++ map f_group fl)))).
  { induction fl as [|f fl IH]; intros pre E rest H HG; cbn [foldM map entries]. { rewrite !app_nil_r. auto. }
    rewrite (views_ok labels pre f (map f_group fl ++ rest)); auto. 2: { apply H. left. auto. } cbn [bind]. rewrite <- specs_next. rewrite (IH (pre ++ [f_group f]) _ rest).
    - rewrite <- !app_assoc. auto. - intros; apply H; right; auto. - rewrite HG. rewrite <- app_assoc. auto. }
  assert (Y : forall el pre E, groups = pre ++ map e_group el ->
    foldM (add_offsets (map block_of (specs groups)) labels) el (dist E, length (specs pre)) = Ret (dist (E ++ entries (length (specs pre)) (map e_group el)), length (specs (pre ++ map e_group el)))).
  { induction el as [|e el IH]; intros pre E HG; cbn [foldM map entries]. { rewrite !app_nil_r. auto. }
    rewrite (offsets_ok labels pre e (map e_group el)); auto. cbn [bind]. rewrite <- specs_next. rewrite (IH (pre ++ [e_group e])).
    - rewrite <- !app_assoc. auto. - rewrite HG. rewrite <- app_assoc. auto. }
  change (@nil entry) with ([] ++ @nil entry). change 0 with (length (specs [])). rewrite (X _ [] _ (map e_group (d_el d))); [|intros f I; apply in_seq in I; cbn in I; lia|reflexivity]. cbn [bind app].
  rewrite Y by reflexivity. cbn [bind]. f_equal. f_equal. unfold groups at 1. clear. change (length (specs [])) with 0.
  assert (Z : forall l1 l2 c pre, length (specs pre) = c -> entries c (l1 ++ l2) = entries c l1 ++ entries (length (specs (pre ++ l1))) l2).
  { induction l1 as [|g l1 IH]; intros l2 c pre Hc; cbn [app entries]. { rewrite app_nil_r, Hc. auto. } rewrite (IH l2 (g_next c g) (pre ++ [g])). - rewrite <- !app_assoc. auto. - rewrite specs_next, Hc. auto. }
  symmetry. apply (Z _ _ 0 []). auto.
Qed.
End Build.
