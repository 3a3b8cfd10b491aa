(** Inference for acyclic models: it ends, and all messages are right. *)
From Coq Require Import Sorted Permutation Relations.
From Verif Require Import Base Values GmView GmViewSpec ShapeSpec ShapeProofs FactorOpsSpec FactorOpsProofs FactorGraphModel FactorGraphSpec FactorGraphProofs FactorGraphAcyclic MpModel MpSpec MpSum MpGraph MpState MpMessages MpSchedule.

Section Infer.
Variable T : Type.
Variable fin : T -> Prop.
Variable OP : oper T.
Variable ACC : accum T.
Variable mult : bool.
Variable small : T -> bool.
Variable wmean : T -> T -> T -> T.
Variable nonzero : T -> bool.
Hypothesis SL : semiring_laws fin OP ACC.
Variable g : gmv T.
Hypothesis WF : wf_gmv g.
Hypothesis FG : fin_gmv fin g.
Hypothesis AC : acyclic g.
Notation n := (length (v_labels g)).
Notation m := (length (v_factors g)).
Notation nl := (labels_at g).
Notation one := (o_neutral OP).
Notation op := (o_op OP).
Notation ac := (a_op ACC).
Notation facs := (facs_of T g).
Notation vars := (vars T OP g).
Notation fval := (fval T OP g).
Notation okl := (okl T g).
Notation fine := (fine T fin g).
Notation inside := (inside T g).
Notation msum := (msum T ACC g).
Notation oprod := (oprod T OP).
Notation asum := (asum T ACC).
Notation set := MpSum.set.
Notation bV := (bV T g).
Notation bF := (bF T OP g).
Notation ok := (ok T OP g).
Notation normalize := (normalize T OP ACC mult small).
Let P0 : positive (v_labels g) := POS T g WF.

(** ** What a message is, as a sum *)
Lemma prod_oprod : forall (G : nat -> mbuf T) hs l, (forall h, In h hs -> fin (nth l (current (G h)) one)) -> prod_at T OP G hs l = oprod (map (fun h => nth l (current (G h)) one) hs).
Proof.
  intros G hs l F. unfold prod_at.
  assert (Q : forall hs a, (forall h, In h hs -> fin (nth l (current (G h)) one)) -> fin a -> fold_left (fun o h => op (nth l (current (G h)) one) o) hs a = op (oprod (map (fun h => nth l (current (G h)) one) hs)) a).
  { clear F hs. induction hs as [|h hs IH]; intros a F A; cbn [fold_left map MpSum.oprod fold_right]; [symmetry; apply (sl_unit _ _ _ SL); auto|]. fold (oprod (map (fun h => nth l (current (G h)) one) hs)).
    assert (Fh : fin (nth l (current (G h)) one)) by (apply F; left; auto).
    assert (OF : fin (oprod (map (fun h => nth l (current (G h)) one) hs))). { apply (oprod_fin T fin OP ACC SL). apply Forall_forall. intros t Ht. apply in_map_iff in Ht. destruct Ht as (z & <- & Hz). apply F. right. auto. }
    rewrite IH by (try (intros; apply F; right; auto); apply (sl_op _ _ _ SL); auto). rewrite (sl_assoc _ _ _ SL) by auto. f_equal. apply (sl_comm _ _ _ SL); auto. }
  rewrite Q by (auto; apply (sl_neutral _ _ _ SL)). apply (unit_r T fin OP ACC SL). apply (oprod_fin T fin OP ACC SL). apply Forall_forall. intros t Ht. apply in_map_iff in Ht. destruct Ht as (z & <- & Hz). auto.
Qed.
Lemma weigh_oprod : forall (G : nat -> mbuf T) us y a, fin a -> (forall u, In u us -> fin (nth (y u) (current (G u)) one)) -> weigh T OP G us y a = op a (oprod (map (fun u => nth (y u) (current (G u)) one) us)).
Proof.
  intros G us y. unfold weigh. induction us as [|u us IH]; intros a A F; cbn [fold_left map MpSum.oprod fold_right]; [symmetry; apply (unit_r T fin OP ACC SL); auto|]. fold (oprod (map (fun u => nth (y u) (current (G u)) one) us)).
  assert (Fh : fin (nth (y u) (current (G u)) one)) by (apply F; left; auto).
  assert (OF : fin (oprod (map (fun u => nth (y u) (current (G u)) one) us))). { apply (oprod_fin T fin OP ACC SL). apply Forall_forall. intros t Ht. apply in_map_iff in Ht. destruct Ht as (z & <- & Hz). apply F. right. auto. }
  rewrite IH by (try (intros; apply F; right; auto); apply (sl_op _ _ _ SL); auto). rewrite (sl_assoc _ _ _ SL) by auto. f_equal. apply (sl_comm _ _ _ SL); auto.
Qed.
Lemma weigh_ext : forall (G : nat -> mbuf T) us y z a, (forall u, In u us -> y u = z u) -> weigh T OP G us y a = weigh T OP G us z a.
Proof. intros G us y z. unfold weigh. induction us as [|u us IH]; intros a H; cbn [fold_left]; auto. rewrite (H u) by (left; auto). apply IH. intros; apply H; right; auto. Qed.
Lemma override_lab : forall (f : nat) x us c u, NoDup us -> length c = length us -> In u us -> override x us c u = nth (pos us u) c 0.
Proof.
  intros _ x us c u N L I. pose proof (pos_in _ _ I) as P. pose proof (override_in us c x N L) as Q. rewrite <- Q at 2. rewrite (nth_map_in _ _ _ _ _ 0) by (apply pos_lt; auto). rewrite (nth_error_nth _ _ 0 P). auto.
Qed.

Lemma fmessage_spec : forall s f v cs, f < m -> In v (vars f) -> is_perm T g cs (vars f) ->
  (forall u, In u (vars f) -> u <> v -> forall l, l < nl u -> fin (nth l (current (bF s f u)) one)) ->
  forall x, okl x -> nth (x v) (fmessage T OP ACC g s f v cs) one =
    msum (filter (fun z => negb (z =? v)) (vars f)) (fun y => op (fval f y) (oprod (map (fun u => nth (y u) (current (bF s f u)) one) (filter (fun z => negb (z =? v)) (vars f))))) x.
Proof.
  intros s f v cs Hf Iv [NC CS] FM x X. unfold fmessage. set (us := filter (fun z => negb (z =? v)) (vars f)).
  assert (FI : forall u, In u us <-> In u (vars f) /\ u <> v). { intros h. unfold us. rewrite filter_In. destruct (Nat.eqb_spec h v); cbn [negb]; intuition congruence. }
  pose proof (vars_nodup T OP g WF f) as NV. assert (NU : NoDup us) by (apply NoDup_filter; auto).
  assert (Hv : v < n) by (apply (vars_lt T OP g WF f); auto). assert (IU : inside us) by (intros u Hu; apply FI in Hu; apply (vars_lt T OP g WF f); apply Hu).
  rewrite acc_step_nth by (rewrite repeat_length; apply X; auto). rewrite nth_repeat_in || idtac.
  assert (NR : nth (x v) (repeat (a_neutral ACC) (nl v)) one = a_neutral ACC). { specialize (X v Hv). clear - X. revert X. generalize (x v). induction (nl v) as [|k IH]; intros [|l] H; cbn [repeat nth]; auto; try lia. apply IH. lia. }
  rewrite NR.
  set (Y := fun y => op (fval f y) (oprod (map (fun u => nth (y u) (current (bF s f u)) one) us))).
  assert (FY : fine Y).
  { intros y Y0. apply (sl_op _ _ _ SL); [apply (fval_fine T fin OP g WF FG); auto|]. apply (oprod_fin T fin OP ACC SL). apply Forall_forall. intros t Ht. apply in_map_iff in Ht. destruct Ht as (u & <- & Hu). apply FI in Hu. apply FM; try apply Hu. apply Y0. apply (vars_lt T OP g WF f). apply Hu. }
  assert (OY : only T (fun u => In u (vars f)) Y).
  { intros y z H. unfold Y. f_equal; [apply fval_only; auto|]. f_equal. apply map_ext_in. intros u Hu. rewrite H; auto. apply FI; auto. }
  rewrite (msum_enum T fin OP ACC SL g P0 us Y x NU IU FY (only_ext T _ _ OY) X).
  (* the tuples *)
  set (phi := fun c => map (override x us c) (vars f)).
  assert (PE : Permutation (map phi (enum T g us)) (filter (fun c => nth (pos (vars f) v) c 0 =? x v) cs)).
  { apply NoDup_Permutation.
    - apply NoDup_map_in; [apply enum_nodup|]. intros a b Ha Hb Eab. apply enum_in in Ha, Hb. pose proof (in_shape_length _ _ Ha) as La. pose proof (in_shape_length _ _ Hb) as Lb. rewrite map_length in La, Lb.
      rewrite <- (override_in us a x NU La), <- (override_in us b x NU Lb). apply map_ext_in. intros u Hu. unfold phi in Eab. apply (map_eq_in _ _ _ _ _ Eab). apply FI; auto.
    - apply NoDup_filter. auto.
    - intros c. rewrite in_map_iff, filter_In, CS, Nat.eqb_eq. split.
      + intros (c' & <- & Hc'). apply enum_in in Hc'. unfold phi. split.
        * apply map_in_shape. intros u Hu. apply (okl_override T g us c' x NU Hc' X). apply (vars_lt T OP g WF f). auto.
        * rewrite (nth_map_in _ _ _ _ _ 0) by (apply pos_lt; auto). rewrite (nth_error_nth _ _ 0 (pos_in _ _ Iv)). apply override_out. rewrite FI. tauto.
      + intros [Hc Ec]. exists (map (lab_at T OP g f c) us). pose proof (in_shape_length _ _ Hc) as Lc. rewrite map_length in Lc.
        assert (SHu : in_shape (map nl us) (map (lab_at T OP g f c) us)). { apply map_in_shape. intros u Hu. apply (lab_lt T OP g WF f c u Hc). apply FI; auto. }
        split; [|apply enum_in; auto]. unfold phi. rewrite <- (lab_map T OP g WF f c Lc) at 2. apply map_ext_in. intros u Hu. destruct (Nat.eq_dec u v) as [->|NE].
        * rewrite override_out by (rewrite FI; tauto). unfold lab_at. rewrite (override_lab 0 _ (vars f) c v NV Lc Iv). auto.
        * assert (Iu : In u us) by (apply FI; auto). rewrite (override_lab 0 x us _ u NU); auto; [|apply map_length]. rewrite (nth_map_in _ _ _ _ _ 0) by (apply pos_lt; auto). rewrite (nth_error_nth _ _ 0 (pos_in _ _ Iu)). auto. }
  (* the values *)
  set (W := fun c => weigh T OP (bF s f) us (lab_at T OP g f c) (snd (fac T OP g f) c)).
  assert (WY : forall c, in_shape (map nl (vars f)) c -> W c = Y (lab_at T OP g f c)).
  { intros c Hc. unfold W, Y. pose proof (in_shape_length _ _ Hc) as Lc. rewrite map_length in Lc.
    assert (EF : snd (fac T OP g f) c = fval f (lab_at T OP g f c)). { unfold MpState.fval. rewrite (lab_map T OP g WF f c Lc). auto. } rewrite EF. apply weigh_oprod.
    - rewrite (fval_only T OP g f _ (override x (vars f) c)).
      + apply (fval_fine T fin OP g WF FG); auto. apply okl_override; auto.
      + intros u Hu. unfold lab_at. rewrite !(override_lab 0 _ (vars f) c u NV Lc Hu). auto.
    - intros u Hu. apply FI in Hu. apply FM; try apply Hu. apply (lab_lt T OP g WF f c u Hc). apply Hu. }
  change (fold_left (fun r w => ac w r) (map W (filter (fun c => nth (pos (vars f) v) c 0 =? x v) cs)) (a_neutral ACC)) with (asum (map W (filter (fun c => nth (pos (vars f) v) c 0 =? x v) cs))).
  assert (WP : forall c, In c (enum T g us) -> W (phi c) = Y (override x us c) /\ okl (override x us c)).
  { intros c Hc. apply enum_in in Hc. pose proof (okl_override T g us c x NU Hc X) as OK. split; auto.
    assert (SHc : in_shape (map nl (vars f)) (phi c)). { apply map_in_shape. intros u Hu. apply OK. apply (vars_lt T OP g WF f). auto. }
    rewrite WY by auto. apply OY. intros u Hu. unfold lab_at, phi. rewrite (override_lab 0 _ (vars f) _ u NV) by (auto; apply map_length). rewrite (nth_map_in _ _ _ _ _ 0) by (apply pos_lt; auto). rewrite (nth_error_nth _ _ 0 (pos_in _ _ Hu)). auto. }
  rewrite <- (asum_perm T fin OP ACC SL (map W (map phi (enum T g us)))).
  - rewrite map_map. f_equal. apply map_ext_in. intros c Hc. apply WP. auto.
  - apply Permutation_map. auto.
  - apply Forall_forall. intros t Ht. rewrite map_map in Ht. apply in_map_iff in Ht. destruct Ht as (c & <- & Hc). destruct (WP c Hc) as [-> O]. apply FY. auto.
Qed.

(** ** Normalization *)
Variable K : T -> Prop.
Hypothesis K_one : K one.
Hypothesis K_op : forall a b, K a -> K b -> K (op a b).
Hypothesis K_fin : forall a, K a -> fin a.
Definition norm_ok (un : bool) : Prop := un = true -> forall v, fin v -> mult && small v = false -> exists k, K k /\ forall a, fin a -> o_iop OP v a = op k a.
Notation vmsg := (vmsg T OP ACC g K).
Notation fmsg := (fmsg T OP ACC g K).

Lemma fold_asum : forall a, fold_left (fun v x => ac x v) a (a_neutral ACC) = asum a.
Proof. reflexivity. Qed.
Lemma normalize_spec : forall un a, norm_ok un -> a <> [] -> Forall fin a -> exists k, K k /\ forall l, l < length a -> nth l (if un then normalize a else a) one = op k (nth l a one).
Proof.
  intros un a NO NE F. assert (U : forall l, l < length a -> nth l a one = op one (nth l a one)). { intros l L. symmetry. apply (sl_unit _ _ _ SL). rewrite Forall_forall in F. apply F. apply nth_In. auto. }
  destruct un; [|exists one; auto]. unfold MpModel.normalize. rewrite fold_asum. destruct (mult && small (asum a)) eqn:E; [exists one; auto|].
  destruct (NO eq_refl (asum a) (asum_fin T fin OP ACC SL a NE F) E) as (k & HK & Hk). exists k. split; auto. intros l L. rewrite (nth_map_in _ _ _ _ l one) by auto. apply Hk. rewrite Forall_forall in F. apply F. apply nth_In. auto.
Qed.
Lemma fmsg_normalize : forall un f v a, norm_ok un -> v < n -> fmsg f v a -> fmsg f v (if un then normalize a else a).
Proof.
  intros un f v a NO Hv H. assert (La : length a = nl v) by apply H. pose proof (nl_pos T g P0 v Hv) as Lp.
  destruct (normalize_spec un a NO) as (k & HK & Hk).
  { intros ->. cbn [length] in La. lia. }
  { apply Forall_forall. intros t Ht. apply (In_nth _ _ one) in Ht. destruct Ht as (l & L & <-). apply (fmsg_fin T fin OP ACC SL g WF FG K K_fin v f a l); auto. lia. }
  destruct H as (_ & k0 & vs & fs & HK0 & HV & HF & HM). split; [destruct un; [rewrite normalize_length|]; auto|]. exists (op k k0), vs, fs. split; auto. split; auto. split; auto.
  intros x X. rewrite Hk by (rewrite La; apply X; auto). rewrite HM by auto. apply (sl_assoc _ _ _ SL); auto.
  apply (msum_fine T fin OP ACC SL g WF FG); auto; [eapply vset_in; eauto|eapply fset_lt; eauto].
Qed.

(** ** One message *)
Variable damping : T.
Hypothesis DN : nonzero damping = false.
Lemma vstep : forall s v i f, ok s -> v < n -> nth_error (facs v) i = Some f ->
  exists s', vhull_propagate T OP ACC mult small wmean nonzero v i damping false s = Ret s' /\ ok s' /\ same_params T s s' /\ only_F T OP g s s' f v /\
    ((forall h, In h (facs v) -> h <> f -> fmsg h v (current (bV s v h))) -> vmsg v f (current (bF s' f v))).
Proof.
  intros s v i f KS Hv Ef. assert (If : In f (facs v)) by (eapply nth_error_In; eauto). pose proof (proj1 (facs_in T OP g v f) If) as [Hf Iv].
  destruct (vprop_ok T OP ACC mult small wmean nonzero g WF s v i f damping false KS Hv Ef) as (s' & Es & Ks & SP & OF & Vs).
  exists s'. split; auto. split; auto. split; auto. split; auto. intros MF.
  assert (FF : forall h l, In h (filter (fun z => negb (z =? f)) (facs v)) -> l < nl v -> fin (nth l (current (bV s v h)) one)).
  { intros h l Hh L. apply filter_In in Hh. destruct Hh as [Hh NE]. apply (fmsg_fin T fin OP ACC SL g WF FG K K_fin v h); auto. apply MF; auto. apply negb_true_iff, Nat.eqb_neq in NE. auto. }
  apply (vmsg_step T fin OP ACC SL g WF FG AC K K_one K_op K_fin v f (fun h => current (bV s v h))); auto.
  - apply lens_current. apply (ok_flen _ _ _ _ Ks); auto.
  - intros l L. rewrite Vs by auto. rewrite (nth_map_in _ _ _ _ l 0) by (rewrite seq_length; auto). rewrite seq_nth by auto. cbn [Nat.add]. apply prod_oprod. auto.
Qed.
Lemma fstep : forall un s f i v, norm_ok un -> ok s -> f < m -> nth_error (vars f) i = Some v ->
  exists s', fhull_propagate T OP ACC mult small wmean nonzero g f i damping un s = Ret s' /\ ok s' /\ same_params T s s' /\ only_V T g s s' v f /\
    ((forall u, In u (vars f) -> u <> v -> vmsg u f (current (bF s f u))) -> fmsg f v (current (bV s' v f))).
Proof.
  intros un s f i v NO KS Hf Ev. assert (Iv : In v (vars f)) by (eapply nth_error_In; eauto). assert (Hv : v < n) by (apply (vars_lt T OP g WF f); auto).
  destruct (fprop_ok T OP ACC mult small wmean nonzero g WF s f i v damping un KS Hf Ev) as (s' & Es & Ks & SP & OF & Vs).
  exists s'. split; auto. split; auto. split; auto. split; auto. intros MV. destruct (Vs DN) as (cs & CP & ->). apply fmsg_normalize; auto.
  apply (fmsg_step T fin OP ACC SL g WF FG AC K K_one K_op K_fin f v (fun u => current (bF s f u))); auto.
  - unfold fmessage. rewrite acc_step_length. apply repeat_length.
  - apply fmessage_spec; auto. intros u Hu NE l L. apply (vmsg_fin T fin OP ACC SL g WF FG K K_fin u f); auto. apply (vars_lt T OP g WF f); auto.
Qed.
End Infer.
