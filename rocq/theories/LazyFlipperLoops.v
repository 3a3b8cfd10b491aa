(** Proofs about the lazy flipper: the loops of infer. *)
From Verif Require Import Base Values GmView GmViewSpec ShapeSpec ShapeProofs GmProofs GmViewProofs
  MovemakerModel MovemakerSpec MovemakerProofs MovemakerSearch IcmModel IcmProofs LazyFlipperModel LazyFlipperForest LazyFlipperEnum LazyFlipperSets LazyFlipperProofs.
From Coq Require Import Sorted.
#[local] Arguments nth_error : simpl never.

(** More fuel does not change a result. *)
Lemma search_mono : forall T OP ACC g F vars next first fuel fuel' buf best bs r, fuel <= fuel' ->
  search T OP ACC fuel g F vars next first buf best bs = Ret r -> search T OP ACC fuel' g F vars next first buf best bs = Ret r.
Proof.
  intros T OP ACC g F vars next first. induction fuel as [|fuel IH]; intros fuel' buf best bs r Hf E; [discriminate|]. destruct fuel' as [|fuel']; [lia|].
  cbn [search] in *. destruct (evaluateFactors T OP g F buf) as [e| | |]; cbn [bind] in *; try discriminate.
  destruct (if a_bop ACC e best then _ else _) as [[b' bs']| | |]; cbn [bind] in *; try discriminate.
  destruct (incr_state next first vars buf) as [[buf' over]| | |]; cbn [bind] in *; try discriminate. destruct over; auto. apply (IH fuel'); auto. lia.
Qed.
Lemma moveAll_mono : forall T OP recompute ACC g m vars fuel fuel' r, fuel <= fuel' ->
  moveOptimallyWithAllLabelsChanging T OP recompute ACC fuel g m vars = Ret r -> moveOptimallyWithAllLabelsChanging T OP recompute ACC fuel' g m vars = Ret r.
Proof.
  intros T OP recompute ACC g m vars fuel fuel' r Hf E. unfold moveOptimallyWithAllLabelsChanging in *.
  destruct (factorsToRecompute T m vars) as [F| | |]; cbn [bind] in *; try discriminate.
  destruct (evaluateFactors T OP g F (mm_state m)) as [init| | |]; cbn [bind] in *; try discriminate.
  destruct (initial_changed T g m 0 vars (mm_buf m)) as [[buf early]| | |]; cbn [bind] in *; try discriminate. destruct early; auto.
  destruct (search T OP ACC fuel g F vars (next_changed T g m) (first_changed T m) buf init (repeat 0 (length vars))) as [r'| | |] eqn:ES; cbn [bind] in *; try discriminate.
  rewrite (search_mono T OP ACC g F vars _ _ fuel fuel' _ _ _ _ Hf ES). auto.
Qed.

Section L.
Variable T : Type.
Variable OP : oper T.
Variable mult : bool.
Variable recompute : T -> bool.
Variable ACC : accum T.
Variable fin : T -> Prop.
Hypothesis OL : op_laws fin OP.
Hypothesis AL : acc_laws fin OP ACC.
Variable g : gmv T.
Hypothesis W : wf_gmv g.
Hypothesis FG : fin_gmv fin g.
Notation better := (a_bop ACC).
Notation n := (length (v_labels g)).
Variable adj : list (list nat).
Hypothesis HA : adj_ok T g adj.
Variable multi : bool.
Hypothesis HM : Forall (fun k => if multi then 2 <= k else k = 2) (v_labels g).
Variable stop : nat -> bool.
Notation reached := (reached T OP ACC g).
Notation rank := (rank T OP ACC g).
Notation opt := (set_opt OP ACC g).
Notation wf := (wf n adj).
Notation xof s := (mm_state (lf_mm s)).
Notation fof s := (lf_forest s).

Lemma LA : length adj = n.
Proof. apply HA. Qed.
Lemma nbr_iff : forall u w, In w (nth u adj []) <-> u < n /\ neighbours g u w /\ w <> u.
Proof.
  intros u w. destruct HA as [LA' H]. destruct (nth_error adj u) as [row|] eqn:E.
  - assert (u < n) by (rewrite <- LA'; apply nth_error_Some; congruence). rewrite (nth_error_nth _ _ [] E), (H u row E). tauto.
  - apply nth_error_None in E. rewrite nth_overflow by auto. cbn. rewrite LA' in E. split; [intros []|]. intros [X _]. lia.
Qed.
Lemma neighbours_lt : forall u w, neighbours g u w -> u < n /\ w < n.
Proof. intros u w (k & fc & A & B & C). destruct (wf_nth _ _ _ _ W A) as [_ X]. rewrite Forall_forall in X. auto. Qed.
Lemma NB : forall u w, In w (nth u adj []) -> w < n.
Proof. intros u w H. apply nbr_iff in H. destruct H as (_ & H & _). apply neighbours_lt in H. apply H. Qed.
Lemma NS : forall u w, In w (nth u adj []) -> In u (nth w adj []).
Proof.
  intros u w H. apply nbr_iff in H. destruct H as (A & B & C). apply nbr_iff. pose proof (neighbours_lt _ _ B). split; [tauto|]. split; auto.
  destruct B as (k & fc & X & Y & Z). exists k, fc. auto.
Qed.

Record inv (s : lf T) : Prop := mkInv {
  in_adj : lf_adj s = adj; in_mm : mm_ok T OP g (lf_mm s); in_wf : wf (fof s); in_t0 : tg_ok n (lf_act0 s); in_t1 : tg_ok n (lf_act1 s); in_max : 1 <= lf_max s }.
Definition cfg (s s' : lf T) : Prop := lf_max s' = lf_max s /\ lf_multi s' = lf_multi s.
Lemma cfg_refl : forall s, cfg s s. Proof. intros; split; auto. Qed.
Lemma cfg_trans : forall a b c, cfg a b -> cfg b c -> cfg a c.
Proof. intros a b c [A B] [C D]. split; congruence. Qed.
Lemma inv_label : forall s, inv s -> labeling g (xof s).
Proof. intros s H. apply (in_mm _ H). Qed.
Lemma inv_act : forall s i, inv s -> tg_ok n (lf_act T s i).
Proof. intros s [] H. apply (in_t1 _ H). apply (in_t0 _ H). Qed.
Lemma inv_with_act : forall s i t, inv s -> tg_ok n t -> inv (with_act T s i t).
Proof. intros s [] t [A B C D E F] H; split; auto. Qed.
Lemma inv_with_mm : forall s m, inv s -> mm_ok T OP g m -> inv (with_mm T s m).
Proof. intros s m [A B C D E F] H; split; auto. Qed.
Lemma inv_with_forest : forall s f, inv s -> wf f -> inv (with_forest T s f).
Proof. intros s m [A B C D E F] H; split; auto. Qed.

Lemma label2 : forall v, v < n -> if multi then 2 <= nth v (v_labels g) 0 else nth v (v_labels g) 0 = 2.
Proof. intros v Hv. rewrite Forall_forall in HM. apply HM. apply nth_In. auto. Qed.

(** ** One attempt *)
Lemma attempt_ok : forall s q P, inv s -> path (fof s) (Some q) P ->
  exists F m' fl, (forall fuel, F <= fuel -> attempt T OP mult recompute ACC g multi fuel s q = Ret (with_mm T s m', fl)) /\ mm_ok T OP g m' /\
    (forall v, ~ In v P -> nth v (mm_state m') 0 = nth v (xof s) 0) /\
    (fl = true -> better (total OP g (mm_state m')) (total OP g (xof s)) = true) /\
    (fl = false -> mm_state m' = xof s /\ opt (xof s) P).
Proof.
  intros s q P I HP. destruct (path_facts n adj LA NB (fof s) q P (in_wf _ I) HP) as (Hq & LP & ND & FP & LN).
  assert (DV : distinct_vars g P) by (split; auto). pose proof (in_mm _ I) as O. pose proof (inv_label s I) as Lx. pose proof (labeling_length _ g _ Lx) as LL.
  assert (Lv : fo_level (fof s) q = Ret (lvl (fof s) q)) by (unfold fo_level; rewrite rd_nd; auto).
  assert (WU : walk_up (fof s) (S (lvl (fof s) q)) (Some q) = Ret P) by (rewrite <- LP; apply walk_up_ok; auto).
  assert (EN : forall m, mm_ok T OP g m -> mm_value m = total OP g (mm_state m)) by (intros m (_ & _ & _ & E); auto).
  assert (Fx : forall y, labeling g y -> fin (total OP g y)) by (intros; apply (total_fin T OP fin OL); auto).
  assert (REL : forall y, labeling g y -> (forall v, ~ In v P -> nth v y 0 = nth v (xof s) 0) -> y = relabel (xof s) P (at_vars y P)).
  { intros y Ly HO. apply off_eq; auto; [rewrite LL; auto|]. rewrite LL. apply (labeling_length _ g). auto. }
  assert (SH : forall y, labeling g y -> in_shape (labels_of g P) (at_vars y P)).
  { intros y Ly. unfold in_shape, at_vars, labels_of. apply Forall2_map_lt. intros v Hv. apply (label_lt T g); auto. rewrite Forall_forall in FP. auto. }
  unfold attempt. pose proof label2 as L2'. destruct multi.
  - unfold flipMultiLabel. rewrite Lv. cbn [bind]. rewrite WU. cbn [bind].
    assert (L2 : Forall (fun k => 2 <= k) (labels_of g P)).
    { unfold labels_of. apply Forall_map. eapply Forall_impl; [|exact FP]. intros v Hv. cbn beta. exact (L2' v Hv). }
    assert (NE : P <> []) by (intros ->; inversion HP).
    destruct (moveAllChanging_ok T OP recompute ACC fin OL AL g W FG (lf_mm s) P _ O DV NE L2 (le_n _)) as (m1 & E1 & O1 & B1 & B2).
    exists (size_of (labels_of g P)), m1, (better (mm_value m1) (mm_value (lf_mm s))). split.
    { intros fuel Hf. rewrite (moveAll_mono T OP recompute ACC g (lf_mm s) P _ fuel _ Hf E1). auto. }
    split; auto. rewrite !EN by auto. split; [|split].
    + intros v Hv. destruct B2 as [->|(c & _ & _ & -> & _)]; auto. apply relabel_off. auto.
    + auto.
    + intros Hb. assert (ES : mm_state m1 = xof s) by (destruct B2 as [X|(c & _ & _ & _ & X)]; [auto|congruence]). split; auto.
      intros y Ly HO HN. rewrite (REL y Ly HO), <- ES at 1. rewrite ES. rewrite <- ES at 2. apply B1; [apply SH; auto|].
      unfold at_vars. clear - HN. induction P as [|a P IH]; cbn [map]; constructor; [apply HN; left; auto|apply IH; intros; apply HN; right; auto].
  - assert (X2 : forall y v, labeling g y -> In v P -> nth v y 0 < 2).
    { intros y v Ly Hv. rewrite Forall_forall in FP. pose proof (label_lt T g y v Ly (FP v Hv)) as X. rewrite (L2' v (FP v Hv)) in X. auto. }
    set (dest := map (fun v => 1 - nth v (xof s) 0) P).
    assert (FA : forall m, mm_state m = xof s -> flip_args T (with_mm T s m) q = Ret (P, dest)).
    { intros m Em. unfold flip_args. cbn [with_mm lf_forest lf_mm]. rewrite Lv. cbn [bind]. rewrite WU. cbn [bind]. rewrite Em.
      rewrite (mapM_Ret _ _ _ (fun v => 1 - nth v (xof s) 0)); auto. intros v Hv. rewrite Forall_forall in FP.
      rewrite (rd_nth _ (xof s) v 0) by (rewrite LL; auto). cbn [bind]. unfold flipped. destruct (Nat.ltb_spec 1 (nth v (xof s) 0)); auto. specialize (X2 _ v Lx Hv). lia. }
    assert (SD : in_shape (labels_of g P) dest).
    { unfold in_shape, labels_of, dest. apply Forall2_map_lt. intros v Hv. rewrite Forall_forall in FP. rewrite (L2' v (FP v Hv)). lia. }
    exists 0. unfold energyAfterFlip, flip.
    assert (FA0 : flip_args T s q = Ret (P, dest)) by (rewrite <- (FA (lf_mm s)) by auto; destruct s; auto). rewrite FA0. cbn [bind].
    rewrite (valueAfterMove_ok T OP mult fin OL g W FG) by auto. cbn [bind with_mm lf_mm]. rewrite EN by auto.
    set (x' := relabel (xof s) P dest). assert (Lx' : labeling g x') by (apply relabel_labeling; auto).
    destruct (better (total OP g x') (total OP g (xof s))) eqn:B.
    + exists (mkMm (mm_fov (lf_mm s)) x' x' (total OP g x')), true. split.
      { intros fuel _. rewrite (FA (lf_mm s)) by auto. cbn [bind lf_mm with_mm]. rewrite (move_ok T OP mult fin OL g W FG) by auto. auto. }
      split; [apply moved_ok; auto|]. cbn [mm_state]. split; [intros v Hv; apply relabel_off; auto|]. split; [auto|discriminate].
    + exists (lf_mm s), false. split; auto. split; auto. split; auto. split; [discriminate|]. intros _. split; auto.
      intros y Ly HO HN. rewrite (REL y Ly HO). replace (at_vars y P) with dest; [exact B|]. unfold at_vars, dest. apply map_ext_in. intros v Hv.
      pose proof (X2 _ v Ly Hv). pose proof (X2 _ v Lx Hv). specialize (HN v Hv). lia.
Qed.

(** ** What a flip does to the optimality of other sets *)
Definition family := list nat -> Prop.
Definition in_range (Fam : family) : Prop := forall P, Fam P -> Forall (fun v => v < n) P.
Lemma opt_after : forall x x' P Q t t', labeling g x -> labeling g x' -> Forall (fun v => v < n) P -> (forall v, ~ In v P -> nth v x' 0 = nth v x 0) ->
  (forall u, tagged t' u <-> tagged t u \/ In u P \/ exists v, In v P /\ In u (nth v adj [])) ->
  opt x Q -> opt x' Q \/ ptag t' Q.
Proof.
  intros x x' P Q t t' Lx Lx' FP HO HT H.
  destruct (existsb (fun v => mem v P || existsb (fun u => mem v (nth u adj [])) P) Q) eqn:E.
  - right. apply existsb_exists in E. destruct E as (v & Hv & E). exists v. split; auto. apply HT. right. apply orb_true_iff in E. destruct E as [E|E].
    + left. apply mem_In. auto.
    + right. apply existsb_exists in E. destruct E as (u & Hu & E). apply mem_In in E. eauto.
  - left. assert (NQ : forall v, In v Q -> ~ In v P /\ forall u, In u P -> ~ In v (nth u adj [])).
    { intros v Hv. assert (E2 : (mem v P || existsb (fun u => mem v (nth u adj [])) P) = false).
      { destruct (mem v P || existsb (fun u => mem v (nth u adj [])) P) eqn:E2; auto. rewrite <- E. symmetry. apply existsb_exists. exists v. auto. }
      apply orb_false_iff in E2. destruct E2 as [E2 E3]. split.
      - intros X. apply mem_In in X. congruence.
      - intros u Hu X. assert (Y : existsb (fun u => mem v (nth u adj [])) P = true); [|congruence]. apply existsb_exists. exists u. split; auto. apply mem_In. auto. }
    apply (set_opt_local T OP ACC fin OL AL g W FG Q x x'); auto.
    + intros v Hv. symmetry. apply HO. apply NQ. auto.
    + intros v u Hv Hu. symmetry. apply HO. intros X. destruct (NQ v Hv) as [A B]. apply (B u X). apply nbr_iff. rewrite Forall_forall in FP.
      split; auto. split; [|intros ->; auto]. destruct Hu as (k & fc & Y1 & Y2 & Y3). exists k, fc. auto.
Qed.
Lemma ptag_mono : forall t t' P, (forall u, tagged t u -> tagged t' u) -> ptag t P -> ptag t' P.
Proof. intros t t' P H (v & A & B). exists v. auto. Qed.

(** ** The loop over new paths *)
Lemma gen_wf : forall F f p l fe, gen n adj F f p l fe -> wf fe -> wf f.
Proof. intros F f p l fe G H. inversion G; subst; auto. Qed.
Lemma gen_path : forall F f p l fe, gen n adj F f p l fe -> forall r P, path f r P -> path fe r P.
Proof. intros F f p l fe G. induction G as [f|f q f' p l fe WF Hq E X G IH]; intros r P H; auto. apply IH. apply (ex_path _ _ _ X). auto. Qed.

Lemma reached_refl : forall x, reached x x. Proof. left. auto. Qed.

Lemma new_paths_ok : forall F0 f p l fe, gen n adj F0 f p l fe -> wf fe -> forall s calls, fof s = f -> inv s ->
  exists F s' calls' cont, (forall fuel, F <= fuel -> new_paths T OP mult recompute ACC g stop multi fuel s p calls = Ret (s', calls', cont)) /\
    inv s' /\ cfg s s' /\ reached (xof s) (xof s') /\ lf_act1 s' = lf_act1 s /\ ((forall k, stop k = false) -> cont = true) /\
    (cont = true -> fof s' = fe /\ forall Fam, in_range Fam -> (forall P, Fam P -> opt (xof s) P \/ ptag (lf_act0 s) P) ->
       forall P, Fam P \/ (exists i, In i l /\ path fe (Some i) P) -> opt (xof s') P \/ ptag (lf_act0 s') P).
Proof.
  intros F0 f p l fe G WE. induction G as [f|f q f' p l fe WF Hq E X G IH]; intros s calls Ef I.
  - exists 0, s, calls, true. split; [intros [|fuel] _; auto|]. split; auto. split; [apply cfg_refl|]. split; [apply reached_refl|]. split; auto. split; auto.
    intros _. split; auto. intros Fam HF HI P [HP|(i & [] & _)]. auto.
  - destruct (path_ex n adj LA NB f WF q Hq) as (P & HP & _). destruct (path_facts n adj LA NB f q P WF HP) as (_ & LP & ND & FP & LN).
    pose proof HP as HP0. rewrite <- Ef in HP. destruct (attempt_ok s q P I HP) as (F1 & m1 & fl & E1 & O1 & HO & HT & HF).
    assert (I1 : inv (with_mm T s m1)) by (apply inv_with_mm; auto). pose proof (inv_label s I) as Lx. pose proof (inv_label _ I1) as Lx1. cbn [with_mm lf_mm] in Lx1.
    assert (W' : wf f') by (eapply gen_wf; eauto).
    assert (PE : path fe (Some q) P) by (eapply gen_path; eauto; apply (ex_path _ _ _ X); auto).
    destruct fl.
    + specialize (HT eq_refl). destruct (activate_ok n adj LA NB (lf_act0 s) f q P n (in_t0 _ I) WF HP0 (le_n _)) as (t' & ET & TO & TT).
      assert (ET' : forall fuel, n <= fuel -> lf_activate T fuel (with_mm T s m1) q false = Ret (with_act T (with_mm T s m1) false t')).
      { intros fuel Hf. unfold lf_activate. cbn [with_mm lf_adj lf_forest lf_act lf_act0]. rewrite (in_adj _ I), Ef.
        unfold activate in *. rewrite (walk_root_ok n adj LA f (Some q) P HP0) in * by lia. cbn [bind] in *. rewrite ET. auto. }
      set (s2 := with_act T (with_mm T s m1) false t') in *. assert (I2 : inv s2) by (apply inv_with_act; auto).
      destruct (stop calls) eqn:ST.
      * exists (S (Nat.max F1 n)), s2, (S calls), false. split.
        { intros fuel Hf. destruct fuel as [|fuel]; [lia|]. cbn [new_paths]. rewrite E1 by lia. cbn [bind]. rewrite ET' by lia. cbn [bind]. rewrite ST. auto. }
        split; auto. split; [split; auto|]. split; [right; auto|]. split; auto. split; [intros Y; rewrite Y in ST; discriminate|discriminate].
      * destruct (IH WE (with_forest T s2 f') (S calls) eq_refl (inv_with_forest _ _ I2 W')) as (F2 & s3 & c3 & cont & E3 & I3 & C3 & R3 & A3 & S3 & J3).
        exists (S (Nat.max (Nat.max F1 n) (Nat.max F0 F2))), s3, c3, cont. split.
        { intros fuel Hf. destruct fuel as [|fuel]; [lia|]. cbn [new_paths]. rewrite E1 by lia. cbn [bind]. rewrite ET' by lia. cbn [bind]. rewrite ST. cbn [negb].
          replace (lf_adj s2) with adj by (symmetry; apply (in_adj _ I2)). replace (lf_forest s2) with f by (symmetry; exact Ef). rewrite E by lia. cbn [bind]. apply E3. lia. }
        split; auto. split; [eapply cfg_trans; [|exact C3]; split; auto|]. split; [|split; [|split; auto]].
        -- apply (reached_trans T OP ACC fin OL AL g W FG) with (y := mm_state m1); auto; [apply inv_label; auto|right; auto].
        -- rewrite A3. auto.
        -- intros HC. destruct (J3 HC) as [Y1 Y2]. split; auto. intros Fam FR HI Q HQ.
           apply (Y2 (fun Q => Fam Q \/ Q = P)).
           ++ intros R [HR| ->]; auto.
           ++ intros R [HR| ->]; cbn [with_forest lf_mm lf_act0].
              ** destruct (HI R HR) as [Z|Z].
                 --- apply (opt_after (xof s) (mm_state m1) P R (lf_act0 s) t'); auto.
                 --- right. eapply ptag_mono; [|exact Z]. intros u Hu. apply TT. auto.
              ** right. destruct P as [|v P]; [inversion HP|]. exists v. split; [left; auto|]. apply TT. right. left. left. auto.
           ++ destruct HQ as [HQ|(i & [<-|Hi] & HQ)]; auto; [left; right; eapply path_det; eauto|right; eauto].
    + destruct (HF eq_refl) as [EM OP1].
      destruct (IH WE (with_forest T (with_mm T s m1) f') calls eq_refl (inv_with_forest _ _ I1 W')) as (F2 & s3 & c3 & cont & E3 & I3 & C3 & R3 & A3 & S3 & J3).
      exists (S (Nat.max F1 (Nat.max F0 F2))), s3, c3, cont. split.
      { intros fuel Hf. destruct fuel as [|fuel]; [lia|]. cbn [new_paths]. rewrite E1 by lia. cbn [bind].
        replace (lf_adj (with_mm T s m1)) with adj by (symmetry; apply (in_adj _ I1)). replace (lf_forest (with_mm T s m1)) with f by (symmetry; exact Ef). rewrite E by lia. cbn [bind]. apply E3. lia. }
      cbn [with_forest with_mm lf_mm lf_act0 lf_act1] in R3, A3, J3. rewrite EM in R3, J3.
      split; auto. split; [eapply cfg_trans; [|exact C3]; split; auto|]. split; auto. split; auto. split; auto.
      intros HC. destruct (J3 HC) as [Y1 Y2]. split; auto. intros Fam FR HI Q HQ.
      apply (Y2 (fun Q => Fam Q \/ Q = P)).
      * intros R [HR| ->]; auto.
      * intros R [HR| ->]; auto.
      * destruct HQ as [HQ|(i & [<-|Hi] & HQ)]; auto; [left; right; eapply path_det; eauto|right; eauto].
Qed.

(** ** One round over the active paths *)
Lemma negb_act : forall s cur t, lf_act T (with_act T s (negb cur) t) cur = lf_act T s cur /\ lf_act T (with_act T s (negb cur) t) (negb cur) = t.
Proof. intros s [] t; split; auto. Qed.
Lemma cur_act : forall s cur t, lf_act T (with_act T s cur t) (negb cur) = lf_act T s (negb cur) /\ lf_act T (with_act T s cur t) cur = t.
Proof. intros s [] t; split; auto. Qed.
Lemma with_act_same : forall s i t, lf_mm (with_act T s i t) = lf_mm s /\ fof (with_act T s i t) = fof s /\ lf_max (with_act T s i t) = lf_max s /\ lf_multi (with_act T s i t) = lf_multi s /\ lf_adj (with_act T s i t) = lf_adj s.
Proof. intros s [] t; repeat split; auto. Qed.

Lemma active_paths_ok : forall cur d l q s calls, length l <= d -> inv s -> lo (fof s) (Some q) (q :: l) ->
  exists F s' calls' cont, (forall fuel, F <= fuel -> active_paths T OP mult recompute ACC g stop multi fuel cur s (Some q) calls = Ret (s', calls', cont)) /\
    inv s' /\ cfg s s' /\ fof s' = fof s /\ lf_act T s' cur = lf_act T s cur /\ ((forall k, stop k = false) -> cont = true) /\
    ((xof s' = xof s /\ lf_act T s' (negb cur) = lf_act T s (negb cur)) \/ better (total OP g (xof s')) (total OP g (xof s)) = true) /\
    (cont = true -> forall Done, in_range Done -> (forall P, Done P -> opt (xof s) P \/ ptag (lf_act T s (negb cur)) P) ->
       (forall i P, In i (q :: l) -> path (fof s) (Some i) P -> opt (xof s) P \/ ptag (lf_act T s (negb cur)) P \/ ptag (lf_act T s cur) P) ->
       forall P, Done P \/ (exists i, In i (q :: l) /\ path (fof s) (Some i) P) -> opt (xof s') P \/ ptag (lf_act T s' (negb cur)) P).
Proof.
  intros cur. induction d as [d IH] using lt_wf_ind. intros l q s calls Hd I HLO.
  assert (Hq : q < size (fof s)) by (inversion HLO; auto). assert (HN : lo (fof s) (nxt (fof s) q) l) by (inversion HLO; auto).
  set (f := fof s) in *. pose proof (in_wf _ I : wf f) as WF.
  destruct (path_ex n adj LA NB f WF q Hq) as (P & HP & _). destruct (path_facts n adj LA NB f q P WF HP) as (_ & LP & ND & FP & LN).
  destruct (attempt_ok s q P I HP) as (F1 & m1 & fl & E1 & O1 & HO & HT & HF). pose proof (inv_label s I) as Lx.
  assert (I1 : inv (with_mm T s m1)) by (apply inv_with_mm; auto). pose proof (inv_label _ I1) as Lx1. cbn [with_mm lf_mm] in Lx1.
  (* the state after the attempt *)
  assert (ST : exists F s2 cs cont, (forall fuel, F <= fuel -> (' (s, fl) <- attempt T OP mult recompute ACC g multi fuel s q ;;
             if fl : bool then s <- lf_activate T fuel s q (negb cur) ;; Ret (s, S calls, negb (stop calls)) else Ret (s, calls, true)) = Ret (s2, cs, cont)) /\
           inv s2 /\ cfg s s2 /\ fof s2 = f /\ lf_act T s2 cur = lf_act T s cur /\ ((forall k, stop k = false) -> cont = true) /\
           ((xof s2 = xof s /\ lf_act T s2 (negb cur) = lf_act T s (negb cur)) \/ better (total OP g (xof s2)) (total OP g (xof s)) = true) /\
           (forall Q, opt (xof s) Q -> opt (xof s2) Q \/ ptag (lf_act T s2 (negb cur)) Q) /\
           (forall u, tagged (lf_act T s (negb cur)) u -> tagged (lf_act T s2 (negb cur)) u) /\
           (opt (xof s2) P \/ ptag (lf_act T s2 (negb cur)) P)).
  { destruct fl.
    - specialize (HT eq_refl). destruct (activate_ok n adj LA NB (lf_act T s (negb cur)) f q P n (inv_act _ _ I) WF HP (le_n _)) as (t' & ET & TO & TT).
      assert (ET' : forall fuel, n <= fuel -> lf_activate T fuel (with_mm T s m1) q (negb cur) = Ret (with_act T (with_mm T s m1) (negb cur) t')).
      { intros fuel Hf. unfold lf_activate. change (lf_act T (with_mm T s m1) (negb cur)) with (lf_act T s (negb cur)). cbn [with_mm lf_adj lf_forest]. rewrite (in_adj _ I). fold f.
        unfold activate in *. rewrite (walk_root_ok n adj LA f (Some q) P HP) in * by lia. cbn [bind] in *. rewrite ET. auto. }
      exists (Nat.max F1 n), (with_act T (with_mm T s m1) (negb cur) t'), (S calls), (negb (stop calls)).
      destruct (negb_act (with_mm T s m1) cur t') as [NA1 NA2]. destruct (with_act_same (with_mm T s m1) (negb cur) t') as (SA1 & SA2 & SA3 & SA4 & SA5).
      rewrite NA1, NA2, SA1, SA2. cbn [with_mm lf_mm lf_forest]. split; [|split; [|split; [|split; [|split; [|split; [|split; [|split; [|split]]]]]]]].
      + intros fuel Hf. rewrite E1 by lia. cbn [bind]. rewrite ET' by lia. auto.
      + apply inv_with_act; auto.
      + split; auto.
      + auto.
      + auto.
      + intros Y. rewrite Y. auto.
      + right. auto.
      + intros Q HQ. apply (opt_after (xof s) (mm_state m1) P Q (lf_act T s (negb cur)) t'); auto.
      + intros u Hu. apply TT. auto.
      + right. destruct P as [|v P']; [inversion HP|]. exists v. split; [left; auto|]. apply TT. right. left. left. auto.
    - destruct (HF eq_refl) as [EM OP1]. exists F1, (with_mm T s m1), calls, true. cbn [with_mm lf_mm lf_forest]. rewrite EM.
      split; [intros fuel Hf; rewrite E1 by lia; auto|]. split; auto. split; [split; auto|]. repeat split; auto. }
  destruct ST as (F2 & s2 & cs & cont & E2 & I2 & C2 & EF2 & A2 & S2 & B2 & K1 & K2 & K3).
  assert (EU : forall fuel', F2 <= S fuel' -> active_paths T OP mult recompute ACC g stop multi (S fuel') cur s (Some q) calls =
     if cont then p <- nextActivePath (lf_act T s cur) (S fuel') f q ;; active_paths T OP mult recompute ACC g stop multi fuel' cur s2 p cs else Ret (s2, cs, false)).
  { intros fuel' Hf. specialize (E2 _ Hf). cbn [active_paths]. destruct (attempt T OP mult recompute ACC g multi (S fuel') s q) as [[s' fl']| | |]; cbn [bind] in *; try discriminate.
    rewrite E2. cbn [bind]. rewrite A2, EF2. auto. }
  destruct cont.
  2:{ exists (S F2), s2, cs, false. split; [intros fuel Hf; destruct fuel as [|fuel]; [lia|]; rewrite EU by lia; auto|]. split; auto. split; auto. split; auto. split; auto. split; auto. split; auto. discriminate. }
  assert (HT2 : tg_ok n (lf_act T s cur)) by (apply inv_act; auto).
  assert (ND2 : forall fuel, n + length l < fuel -> nextActivePath (lf_act T s cur) fuel f q = nextActivePath (lf_act T s cur) (S (n + length l)) f q).
  { intros fuel Hf. destruct (nextActive_ok n adj LA NB (lf_act T s cur) f HT2 WF l q Hq HN fuel Hf) as [[Ea Na]|(l1 & i & l2 & Ea1 & Ea & Na & Ta & La)];
    destruct (nextActive_ok n adj LA NB (lf_act T s cur) f HT2 WF l q Hq HN (S (n + length l)) ltac:(lia)) as [[Eb Nb]|(k1 & j & k2 & Eb1 & Eb & Nb & Tb & Lb)]; rewrite Ea, Eb; auto.
    - exfalso. apply (Na j); auto. rewrite Eb1. apply in_app_iff. right. left. auto.
    - exfalso. apply (Nb i); auto. rewrite Ea1. apply in_app_iff. right. left. auto.
    - f_equal. f_equal. clear - Ea1 Eb1 Na Nb Ta Tb. assert (H : forall a1 x a2 b1 y b2, a1 ++ x :: a2 = b1 ++ y :: b2 -> (forall j, In j a1 -> j <> y) -> (forall j, In j b1 -> j <> x) -> x = y :> nat).
      { induction a1 as [|h a1 IH]; intros x a2 [|k b1] y b2 H H1 H2; cbn in H; injection H as ? ?; auto.
        - exfalso. apply (H2 k); [left|]; auto.
        - exfalso. apply (H1 h); [left|]; auto.
        - eapply IH; eauto; intros z Hz; [apply H1|apply H2]; right; auto. }
      apply (H l1 i l2 k1 j k2); [congruence| |].
      + intros z Hz ->. apply (Na j); auto.
      + intros z Hz ->. apply (Nb i); auto. }
  assert (TODO : forall Q, opt (xof s) Q \/ ptag (lf_act T s (negb cur)) Q \/ ptag (lf_act T s cur) Q -> opt (xof s2) Q \/ ptag (lf_act T s2 (negb cur)) Q \/ ptag (lf_act T s2 cur) Q).
  { intros Q [Y|[Y|Y]]; [destruct (K1 Q Y); auto|right; left; eapply ptag_mono; eauto|rewrite A2; auto]. }
  assert (SKIP : forall i Q, path f (Some i) Q -> ~ ntag (lf_act T s cur) f i -> opt (xof s) Q \/ ptag (lf_act T s (negb cur)) Q \/ ptag (lf_act T s cur) Q -> opt (xof s2) Q \/ ptag (lf_act T s2 (negb cur)) Q).
  { intros i Q HQ NT Y. destruct (TODO Q Y) as [Z|[Z|Z]]; auto. exfalso. apply NT. exists Q. rewrite A2 in Z. auto. }
  assert (DONE : forall Q, opt (xof s) Q \/ ptag (lf_act T s (negb cur)) Q -> opt (xof s2) Q \/ ptag (lf_act T s2 (negb cur)) Q).
  { intros Q [Y|Y]; [apply K1; auto|right; eapply ptag_mono; eauto]. }
  destruct (nextActive_ok n adj LA NB (lf_act T s cur) f HT2 WF l q Hq HN (S (n + length l)) ltac:(lia)) as [[Ea Na]|(l1 & i & l2 & Ea1 & Ea & Na & Ta & La)].
  - exists (S (Nat.max F2 (S (n + length l)))), s2, cs, true. split.
    { intros fuel Hf. destruct fuel as [|fuel]; [lia|]. rewrite EU by lia. rewrite ND2, Ea by lia. cbn [bind]. destruct fuel; auto. }
    split; auto. split; auto. split; auto. split; auto. split; auto. split; auto. intros _ Done FR HD HTD Q [HQ|(j & [<-|Hj] & HQ)]; auto.
    + rewrite (path_det _ _ _ _ HQ HP). auto.
    + apply (SKIP j); auto. eapply HTD; eauto. right. auto.
  - assert (LL : length l2 < d) by (rewrite Ea1, app_length in Hd; cbn [length] in Hd; lia). pose proof La as La'. rewrite <- EF2 in La'.
    destruct (IH (length l2) LL l2 i s2 cs (le_n _) I2 La') as (F3 & s3 & c3 & cont3 & E3 & I3 & C3 & EF3 & A3 & S3 & B3 & J3).
    exists (S (Nat.max (Nat.max F2 (S (n + length l))) F3)), s3, c3, cont3. split.
    { intros fuel Hf. destruct fuel as [|fuel]; [lia|]. rewrite EU by lia. rewrite ND2, Ea by lia. cbn [bind]. apply E3. lia. }
    split; auto. split; [eapply cfg_trans; eauto|]. split; [congruence|]. split; [congruence|]. split; auto.
    assert (Fx : forall y, labeling g y -> fin (total OP g y)) by (intros; apply (total_fin T OP fin OL); auto).
    split.
    { destruct B2 as [[Y1 Y2]|Y], B3 as [[Z1 Z2]|Z].
      - left. split; congruence.
      - right. rewrite <- Y1. auto.
      - right. rewrite Z1. auto.
      - right. apply (al_trans _ _ _ AL) with (b := total OP g (xof s2)); auto; apply Fx, inv_label; auto. }
    intros HC Done FR HD HTD Q HQ. rewrite EF2 in J3.
    apply (J3 HC (fun Q => Done Q \/ Q = P \/ exists j, In j l1 /\ path f (Some j) Q)).
    + intros R [HR|[->|(j & Hj & HR)]]; auto. eapply path_facts; eauto; [apply LA|apply NB].
    + intros R [HR|[->|(j & Hj & HR)]]; auto. apply (SKIP j); auto. apply (HTD j); auto. right. rewrite Ea1. apply in_app_iff. auto.
    + intros j R Hj HR. apply TODO. apply (HTD j); auto. right. rewrite Ea1. apply in_app_iff. auto.
    + destruct HQ as [HQ|(j & [<-|Hj] & HQ)]; auto.
      * left. right. left. eapply path_det; eauto.
      * rewrite Ea1 in Hj. apply in_app_iff in Hj. destruct Hj as [Hj|Hj]; [left; right; right; eauto|right; eauto].
Qed.

(** ** The rounds *)
(** The paths of the levels. *)
Definition level_path (f : forest) (P : list nat) : Prop :=
  exists k b C i, nth_error (fo_anchors f) k = Some b /\ chain f (Some b) C /\ In i C /\ path f (Some i) P.

Definition on_level (f : forest) (i : nat) : Prop := exists k b C, nth_error (fo_anchors f) k = Some b /\ chain f (Some b) C /\ In i C.
Lemma chain_closed : forall f p C, chain f p C -> forall i s, In i C -> suc f i = Some s -> In s C.
Proof.
  intros f p C H. induction H as [|q C Hq H IH]; intros i s Hi E; [destruct Hi|]. destruct Hi as [<-|Hi]; [|right; eauto].
  rewrite E in H. inversion H; subst. right. left. auto.
Qed.
Lemma anchor_on_level : forall f k a, wf f -> nth_error (fo_anchors f) k = Some a -> on_level f a.
Proof.
  intros f k a WF E. destruct (wf_anchor _ _ f WF _ _ E) as [Ha _]. destruct (chain_ex n adj LA f WF (size f) a ltac:(lia) Ha) as (C & HC & _).
  exists k, a, C. split; auto. split; auto. inversion HC; subst. left. auto.
Qed.
Lemma lo_on_level : forall f p l, lo f p l -> wf f -> (forall q, p = Some q -> on_level f q) -> forall i, In i l -> on_level f i.
Proof.
  intros f p l H WF. induction H as [|q l Hq H IH]; intros HP i Hi; [destruct Hi|]. destruct Hi as [<-|Hi]; [auto|]. apply IH; auto.
  intros r Hr. unfold nxt in Hr. destruct (suc f q) as [s|] eqn:E.
  - injection Hr as <-. destruct (HP q eq_refl) as (k & b & C & A & B & D). exists k, b, C. split; auto. split; auto. eapply chain_closed; eauto.
  - eapply anchor_on_level; eauto.
Qed.

Lemma no_tags_ntag : forall t f i, no_tags t -> ~ ntag t f i.
Proof. intros t f i H (P & _ & v & _ & X). apply (H v X). Qed.

Definition todo (c : nat) (s : lf T) (cur : bool) : Prop :=
  (c = 0 /\ no_tags (lf_act T s cur)) \/ (c = 1 /\ no_tags (lf_act T s (negb cur))) \/ c = 2.

Lemma firstActive_ok : forall t f, tg_ok n t -> wf f ->
  (exists F, (forall fuel, F <= fuel -> firstActivePath t fuel f = Ret None) /\ forall L, complete n adj f L -> 1 <= L -> no_tags t) \/
  (exists F a l1 q l2, (forall fuel, F <= fuel -> firstActivePath t fuel f = Ret (Some q)) /\ nth_error (fo_anchors f) 0 = Some a /\ lo f (Some a) (l1 ++ q :: l2) /\
     lo f (Some q) (q :: l2) /\ (forall i, In i l1 -> ~ ntag t f i) /\ ntag t f q).
Proof.
  intros t f HT WF. unfold firstActivePath. destruct (Nat.eqb_spec (fo_levels f) 0) as [E0|N0].
  - left. exists 0. split; auto. intros L [HL _] H1. lia.
  - unfold fo_levelAnchor. destruct (nth_error (fo_anchors f) 0) as [a|] eqn:EA; [|apply nth_error_None in EA; unfold fo_levels in *; lia].
    rewrite (rd_Ret _ _ _ _ EA). cbn [bind]. destruct (wf_anchor _ _ f WF _ _ EA) as [Ha HL].
    destruct (chain_ex n adj LA f WF (size f) a ltac:(lia) Ha) as (C & HC & LC & FC). rewrite Forall_forall in FC.
    assert (HL0 : forall i, In i C -> lvl f i = 0) by (intros i Hi; destruct (FC i Hi); congruence).
    destruct (lo_ex' n adj LA f a WF Ha) as [l HLO].
    pose proof (first_active_ok n adj LA t f HT WF (Some a) C HC HL0 l HLO) as FA.
    destruct (FA (length C) (le_n _)) as [[E N]|(l1 & q & l2 & El & E & N & NT & LQ)].
    + left. exists (length C). split.
      * intros fuel Hf. destruct (FA fuel Hf) as [[E' _]|(l1 & q & l2 & El & E' & N' & NT & LQ)]; auto. exfalso.
        (* the node found is on the chain *)
        revert E'. clear - E Hf HC. intros E'.
        assert (M : forall fuel f' p r, first_active t fuel f p = Ret r -> fuel <= f' -> first_active t f' f p = Ret r).
        { induction fuel0 as [|k IH]; intros f' p r H H1; destruct p as [i|]; cbn [first_active] in *; try discriminate; [destruct f'; auto| |destruct f'; auto].
          destruct f' as [|f']; [lia|]. cbn [first_active]. destruct (fo_value f i) as [v| | |]; cbn [bind] in *; try discriminate.
          destruct (tg_get t v) as [b| | |]; cbn [bind] in *; try discriminate. destruct b; auto. destruct (fo_succ f i) as [p| | |]; cbn [bind] in *; try discriminate. apply IH; auto. lia. }
        rewrite (M _ fuel _ _ E Hf) in E'. discriminate.
      * intros L [HLV HCM] H1 v Hv. destruct (HCM 0 ltac:(lia)) as (a' & C' & EA' & HC' & HR). rewrite EA in EA'. injection EA' as <-.
        rewrite (chain_det _ _ _ _ HC' HC) in HR.
        assert (Hvn : v < n). { destruct (Nat.lt_ge_cases v n); auto. exfalso. unfold tagged in Hv. rewrite nth_overflow in Hv by (rewrite (tk_len _ _ HT); auto). discriminate. }
        destruct (HR [v] (canon_root n adj v Hvn) eq_refl) as (i & Hi & Hp). apply (N i Hi). exists [v]. split; auto. exists v. split; [left; auto|auto].
    + right. exists (length C), a, l1, q, l2. split; [|rewrite <- El; auto].
      intros fuel Hf.
      assert (M : forall fuel f' p r, first_active t fuel f p = Ret r -> fuel <= f' -> first_active t f' f p = Ret r).
      { clear. induction fuel as [|k IH]; intros f' p r H H1; destruct p as [i|]; cbn [first_active] in *; try discriminate; [destruct f'; auto| |destruct f'; auto].
        destruct f' as [|f']; [lia|]. cbn [first_active]. destruct (fo_value f i) as [v| | |]; cbn [bind] in *; try discriminate.
        destruct (tg_get t v) as [b| | |]; cbn [bind] in *; try discriminate. destruct b; auto. destruct (fo_succ f i) as [p| | |]; cbn [bind] in *; try discriminate. apply IH; auto. lia. }
      apply (M (length C)); auto.
Qed.

Lemma active_rounds_ok : forall k c cur s calls, 3 * rank (xof s) + c <= k -> inv s -> todo c s cur ->
  exists F s' calls' cont, (forall fuel, F <= fuel -> active_rounds T OP mult recompute ACC g stop multi fuel cur s calls = Ret (s', calls', cont)) /\
    inv s' /\ cfg s s' /\ fof s' = fof s /\ reached (xof s) (xof s') /\ ((forall k, stop k = false) -> cont = true) /\
    (cont = true -> forall L, complete n adj (fof s) L -> 1 <= L -> no_tags (lf_act T s (negb cur)) ->
       (forall P, level_path (fof s) P -> opt (xof s) P \/ ptag (lf_act T s cur) P) ->
       no_tags (lf_act0 s') /\ no_tags (lf_act1 s') /\ forall P, level_path (fof s) P -> opt (xof s') P).
Proof.
  induction k as [|k IH]; intros c cur s calls Hk I TD.
  { (* nothing to do *)
    assert (c = 0) by lia. subst c. destruct TD as [[_ NT]|[[X _]|X]]; try discriminate.
    destruct (firstActive_ok (lf_act T s cur) (fof s) (inv_act _ _ I) (in_wf _ I)) as [(F & E & N)|(F & a & l1 & q & l2 & E & _ & _ & _ & _ & X)]; [|exfalso; eapply no_tags_ntag; eauto].
    exists (S F), s, calls, true. split; [intros fuel Hf; destruct fuel as [|fuel]; [lia|]; cbn [active_rounds]; rewrite E by lia; auto|].
    split; auto. split; [apply cfg_refl|]. split; auto. split; [apply reached_refl|]. split; auto. intros _ L HC HL NO HO.
    assert (NC : no_tags (lf_act T s cur)) by auto. split; [destruct cur; auto|]. split; [destruct cur; auto|]. intros P HP. destruct (HO P HP) as [Y|(v & _ & Y)]; auto. destruct (NC v Y). }
  destruct (firstActive_ok (lf_act T s cur) (fof s) (inv_act _ _ I) (in_wf _ I)) as [(F & E & N)|(F & a & l1 & q & l2 & E & EA & LO1 & LO2 & N & NQ)].
  - exists (S F), s, calls, true. split; [intros fuel Hf; destruct fuel as [|fuel]; [lia|]; cbn [active_rounds]; rewrite E by lia; auto|].
    split; auto. split; [apply cfg_refl|]. split; auto. split; [apply reached_refl|]. split; auto. intros _ L HC HL NO HO.
    pose proof (N L HC HL) as NC. split; [destruct cur; auto|]. split; [destruct cur; auto|]. intros P HP. destruct (HO P HP) as [Y|(v & _ & Y)]; auto. destruct (NC v Y).
  - assert (C0 : c <> 0). { intros ->. destruct TD as [[_ X]|[[X _]|X]]; try discriminate. eapply no_tags_ntag; eauto. }
    destruct (active_paths_ok cur (length l2) l2 q s calls (le_n _) I LO2) as (F1 & s1 & c1 & cont & E1 & I1 & C1 & EF1 & A1 & S1 & B1 & J1).
    destruct (tg_untag_ok n (lf_act T s1 cur) (inv_act _ _ I1)) as (t' & ET & TO & TN).
    set (s2 := with_act T s1 cur t') in *. assert (I2 : inv s2) by (apply inv_with_act; auto).
    destruct (with_act_same s1 cur t') as (SA1 & SA2 & SA3 & SA4 & SA5). destruct (cur_act s1 cur t') as [NA1 NA2]. fold s2 in SA1, SA2, SA3, SA4, SA5, NA1, NA2.
    assert (C2 : cfg s s2) by (eapply cfg_trans; [exact C1|split; auto]).
    assert (R1 : reached (xof s) (xof s1)) by (destruct B1 as [[X _]|X]; [left|right]; auto).
    assert (EU : forall fuel, Nat.max F F1 <= S fuel -> active_rounds T OP mult recompute ACC g stop multi (S fuel) cur s calls =
       if cont then active_rounds T OP mult recompute ACC g stop multi fuel (negb cur) s2 c1 else Ret (s2, c1, false)).
    { intros fuel Hf. cbn [active_rounds]. rewrite E by lia. cbn [bind]. rewrite E1 by lia. cbn [bind]. rewrite ET. cbn [bind]. auto. }
    destruct cont.
    2:{ exists (S (Nat.max F F1)), s2, c1, false. split; [intros fuel Hf; destruct fuel as [|fuel]; [lia|]; apply EU; lia|]. split; auto. split; auto. split; [congruence|]. split; [rewrite SA1; auto|]. split; [intros Y; specialize (S1 Y); discriminate|discriminate]. }
    assert (NN : negb (negb cur) = cur) by (destruct cur; auto).
    assert (TD2 : exists c2, 3 * rank (xof s2) + c2 <= k /\ todo c2 s2 (negb cur)).
    { rewrite SA1. destruct B1 as [[X1 X2]|X].
      - destruct TD as [[X _]|[[X NO]|X]].
        + contradiction.
        + exists 0. split; [rewrite X1; lia|]. left. split; auto. rewrite NA1, X2. auto.
        + exists 1. split; [rewrite X1; lia|]. right. left. split; auto. rewrite NN, NA2. auto.
      - exists 2. split; [|right; right; auto]. apply (rank_lt T OP ACC fin OL AL g W FG) in X; try (apply inv_label; auto). assert (c = 1 \/ c = 2) by (destruct TD as [[Y _]|[[Y _]|Y]]; auto; contradiction). lia. }
    destruct TD2 as (c2 & K2 & TD2). destruct (IH c2 (negb cur) s2 c1 K2 I2 TD2) as (F3 & s3 & c3 & cont3 & E3 & I3 & C3 & EF3 & R3 & S3 & J3).
    exists (S (Nat.max (Nat.max F F1) F3)), s3, c3, cont3. split; [intros fuel Hf; destruct fuel as [|fuel]; [lia|]; rewrite EU by lia; apply E3; lia|].
    split; auto. split; [eapply cfg_trans; eauto|]. split; [congruence|]. rewrite SA1 in R3.
    split; [apply (reached_trans T OP ACC fin OL AL g W FG) with (y := xof s1); auto; apply inv_label; auto|]. split; auto.
    intros HC L HCM HL NO HO. rewrite SA2, EF1, SA1, NN, NA1, NA2 in J3. apply (J3 HC L HCM HL TN).
    intros P HP. apply (J1 eq_refl (fun Q => level_path (fof s) Q /\ exists i, In i l1 /\ path (fof s) (Some i) Q)).
    + intros Q [_ (i & _ & HQ)]. destruct (path_facts n adj LA NB (fof s) i Q (in_wf _ I) HQ) as (_ & _ & _ & Y & _). exact Y.
    + intros Q [HQ1 (i & Hi & HQ2)]. destruct (HO Q HQ1) as [Y|Y]; auto. exfalso. apply (N i Hi). exists Q. auto.
    + intros i Q Hi HQ.
      assert (OL1 : on_level (fof s) i).
      { apply (lo_on_level (fof s) (Some a) (l1 ++ q :: l2)); auto; [apply (in_wf _ I)| |apply in_app_iff; auto].
        intros r Hr. injection Hr as <-. eapply anchor_on_level; eauto. apply (in_wf _ I). }
      destruct OL1 as (kk & b & C & X1 & X2 & X3). destruct (HO Q) as [Y|Y]; auto. exists kk, b, C, i. auto.
    + destruct HP as (kk & b & C & i & Hb & HCH & Hi & HPi).
      assert (Ik : In i (l1 ++ q :: l2)).
      { apply (lo_all n adj LA NB (fof s) L a (l1 ++ q :: l2) (in_wf _ I) HCM EA LO1 kk b C); auto. destruct HCM as [<- _]. apply nth_error_Some. congruence. }
      apply in_app_iff in Ik. destruct Ik as [Ik|Ik]; [left; split; [exists kk, b, C, i; auto|eauto]|right; eauto].
Qed.

(** ** The lengths *)
Lemma first_levels : forall f f' len, wf f -> wf f' -> ext (len - 1) f f' -> 1 <= len -> fo_levels f = len - 1 -> fo_levels f' <= len.
Proof.
  intros f f' len WF WF' X H1 HL. destruct (Nat.le_gt_cases (fo_levels f') len) as [|H]; auto. exfalso.
  destruct (nth_error (fo_anchors f') len) as [a|] eqn:E; [|apply nth_error_None in E; unfold fo_levels in *; lia].
  destruct (wf_anchor _ _ f' WF' _ _ E) as [Ha HLa]. destruct (Nat.lt_ge_cases a (size f)) as [Y|Y].
  - destruct (ex_node _ _ _ X a Y) as (_ & _ & Z). pose proof (wf_level _ _ f WF a Y). lia.
  - rewrite (ex_new _ _ _ X a) in HLa by lia. lia.
Qed.
Lemma opt_same : forall x P Q, (forall v, In v P <-> In v Q) -> opt x P -> opt x Q.
Proof. intros x P Q H HO y Ly A B. apply HO; auto. - intros v Hv. apply A. rewrite <- H. auto. - intros v Hv. apply B. apply H. auto. Qed.
Lemma complete_paths : forall f L x, complete n adj f L -> (forall P, level_path f P -> opt x P) -> forall R, canon n adj R -> length R <= L -> opt x R.
Proof.
  intros f L x [HL HC] HO R CR LR. pose proof (canon_length n adj R CR). destruct (HC (length R - 1) ltac:(lia)) as (a & C & E & HCH & HR).
  destruct (HR R CR ltac:(lia)) as (i & Hi & Hp). apply (opt_same x (rev R)); [intros v; symmetry; apply in_rev|]. apply HO. exists (length R - 1), a, C, i. auto.
Qed.

Lemma lengths_ok : forall d len s calls, S n - len <= d -> 1 <= len -> inv s -> (2 <= len -> len - 2 < fo_levels (fof s)) ->
  exists F s', (forall fuel, F <= fuel -> lengths T OP mult recompute ACC g stop multi fuel s len calls = Ret s') /\
    inv s' /\ cfg s s' /\ reached (xof s) (xof s') /\
    ((forall k, stop k = false) -> complete n adj (fof s) (len - 1) -> no_tags (lf_act0 s) -> no_tags (lf_act1 s) ->
       (forall P, level_path (fof s) P -> opt (xof s) P) -> len <= lf_max s ->
       forall R, canon n adj R -> length R <= lf_max s -> opt (xof s') R).
Proof.
  induction d as [|d IH]; intros len s calls Hd Hlen I HLV.
  all: destruct (stop calls) eqn:ST;
    [exists 1, s; split; [intros fuel Hf; destruct fuel as [|fuel]; [lia|]; cbn [lengths]; rewrite ST; auto|];
     split; auto; split; [apply cfg_refl|]; split; [apply reached_refl|]; intros Y; rewrite Y in ST; discriminate|].
  all: destruct (first_ok n adj LA NB NS (fof s) len (in_wf _ I) Hlen HLV) as (F1 & f' & p & E1 & W1 & X1 & P1 & N1 & J1).
  all: assert (EU : forall fuel, F1 <= S fuel -> lengths T OP mult recompute ACC g stop multi (S fuel) s len calls =
    match p with
    | None => Ret (with_forest T s f')
    | Some q => ' (s, calls, cont) <- new_paths T OP mult recompute ACC g stop multi (S fuel) (with_forest T s f') (Some q) (S calls) ;;
                ' (s, calls, cont) <- (if cont : bool then active_rounds T OP mult recompute ACC g stop multi (S fuel) false s calls else Ret (s, calls, false)) ;;
                if len =? lf_max s then Ret s else if cont : bool then lengths T OP mult recompute ACC g stop multi fuel s (S len) calls else Ret s
    end) by (intros fuel Hf; cbn [lengths]; rewrite ST, (in_adj _ I), E1 by lia; cbn [bind]; destruct p; auto).
  all: destruct p as [q|];
    [|exists (S F1), (with_forest T s f'); split; [intros fuel Hf; destruct fuel as [|fuel]; [lia|]; apply EU; lia|];
      split; [apply inv_with_forest; auto|]; split; [split; auto|]; split; [apply reached_refl|];
      intros NST HC T0 T1 HO HMX R CR LR; cbn [with_forest lf_mm]; apply (complete_paths (fof s) (len - 1)); auto;
      specialize (J1 HC R CR); lia].
  - (* longer than the number of variables: there is no path *)
    exfalso. specialize (E1 F1 (le_n _)). unfold generateFirst in E1. destruct (Nat.ltb_spec n len); [discriminate|lia].
  - destruct (P1 q eq_refl) as (Hq & HLq & HLf). set (s1 := with_forest T s f') in *. assert (I1 : inv s1) by (apply inv_with_forest; auto).
    destruct (gen_ex n adj LA NB NS f' q W1 Hq) as (F2 & l & fe & G & W2 & X2 & FL). rewrite HLq in X2.
    destruct (new_paths_ok F2 f' (Some q) l fe G W2 s1 (S calls) eq_refl I1) as (F3 & s3 & c3 & cont & E3 & I3 & C3 & R3 & A3 & S3 & J3).
    pose proof (gen_nlevels n adj LA NB NS F2 f' (Some q) l fe G q eq_refl) as GL.
    assert (AR : exists F s4 c4 cont4, (forall fuel, F <= fuel -> (if cont : bool then active_rounds T OP mult recompute ACC g stop multi fuel false s3 c3 else Ret (s3, c3, false)) = Ret (s4, c4, cont4)) /\
        inv s4 /\ cfg s3 s4 /\ fof s4 = fof s3 /\ reached (xof s3) (xof s4) /\ ((forall k, stop k = false) -> cont4 = true) /\ (cont4 = true -> cont = true) /\
        (cont4 = true -> forall L, complete n adj (fof s3) L -> 1 <= L -> no_tags (lf_act1 s3) ->
           (forall P, level_path (fof s3) P -> opt (xof s3) P \/ ptag (lf_act0 s3) P) ->
           no_tags (lf_act0 s4) /\ no_tags (lf_act1 s4) /\ forall P, level_path (fof s3) P -> opt (xof s4) P)).
    { destruct cont.
      - destruct (active_rounds_ok (3 * rank (xof s3) + 2) 2 false s3 c3 (le_n _) I3) as (F4 & s4 & c4 & cont4 & E4 & I4 & C4 & EF4 & R4 & S4 & J4); [right; right; auto|].
        exists F4, s4, c4, cont4. split; [|split; [|split; [|split; [|split; [|split; [|split]]]]]]; auto.
      - exists 0, s3, c3, false. split; auto. split; auto. split; [apply cfg_refl|]. split; auto. split; [apply reached_refl|]. split; auto. split; discriminate. }
    destruct AR as (F4 & s4 & c4 & cont4 & E4 & I4 & C4 & EF4 & R4 & S4 & CC & J4).
    assert (Lx : forall s, inv s -> labeling g (xof s)) by apply inv_label.
    assert (R14 : reached (xof s) (xof s4)) by (apply (reached_trans T OP ACC fin OL AL g W FG) with (y := xof s3); auto).
    assert (C14 : cfg s s4) by (eapply cfg_trans; [|exact C4]; eapply cfg_trans; [|exact C3]; split; auto).
    assert (EU2 : forall fuel, Nat.max (Nat.max F1 F3) F4 <= S fuel -> lengths T OP mult recompute ACC g stop multi (S fuel) s len calls =
        if len =? lf_max s4 then Ret s4 else if cont4 : bool then lengths T OP mult recompute ACC g stop multi fuel s4 (S len) c4 else Ret s4).
    { intros fuel Hf. rewrite EU by lia. rewrite E3 by lia. cbn [bind]. rewrite E4 by lia. cbn [bind]. auto. }
    (* what is known after this length, from a complete forest *)
    assert (K : (forall k, stop k = false) -> complete n adj (fof s) (len - 1) -> no_tags (lf_act0 s) -> no_tags (lf_act1 s) ->
        (forall P, level_path (fof s) P -> opt (xof s) P) ->
        complete n adj (fof s4) len /\ no_tags (lf_act0 s4) /\ no_tags (lf_act1 s4) /\ forall P, level_path (fof s4) P -> opt (xof s4) P).
    { intros NST HC T0 T1 HO. pose proof (S4 NST) as HC4. pose proof (CC HC4) as HC3. destruct (J3 HC3) as [EF3 K3]. pose proof HC as HC'. destruct HC' as [HLV' _].
      assert (HLE : fo_levels fe = len) by (rewrite GL; pose proof (first_levels (fof s) f' len (in_wf _ I) W1 X1 Hlen HLV'); lia).
      destruct (level_complete n adj LA NB NS (fof s) len f' q F2 l fe (in_wf _ I) Hlen HC (J1 HC) W1 X1 HLq G W2 X2 HLE) as (CMP & ANC & CHN).
      rewrite EF4, EF3. split; auto. rewrite EF3 in J4. apply (J4 HC4 len CMP Hlen).
      - rewrite A3. auto.
      - intros P HP. apply (K3 (fun Q => level_path (fof s) Q)).
        + intros Q (k0 & b & C & i & _ & _ & _ & HQ). destruct (path_facts n adj LA NB (fof s) i Q (in_wf _ I) HQ) as (_ & _ & _ & Y & _). exact Y.
        + intros Q HQ. left. apply (HO Q HQ).
        + destruct HP as (k0 & b & C & i & Hb & HCH & Hi & HPi). assert (Hk0 : k0 < len) by (rewrite <- HLE; apply nth_error_Some; congruence).
          destruct (Nat.eq_dec k0 (len - 1)) as [->|Nk].
          * right. rewrite ANC in Hb. injection Hb as <-. rewrite (chain_det _ _ _ _ HCH CHN) in Hi. eauto.
          * left. destruct HC as [_ HCM]. destruct (HCM k0 ltac:(lia)) as (b' & C' & Eb' & HCH' & _).
            assert (XX : ext (len - 1) (fof s) fe) by (eapply ext_trans; eauto).
            pose proof (ex_anchor _ _ _ XX _ _ Eb') as Y. rewrite Hb in Y. injection Y as <-.
            destruct (wf_anchor _ _ _ (in_wf _ I) _ _ Eb') as [Hbs HLb]. destruct (chain_facts n adj LA (fof s) b C' (in_wf _ I) HCH') as [_ FC]. rewrite Forall_forall in FC.
            assert (HCH2 : chain fe (Some b) C') by (apply (ex_chain _ _ _ XX); auto; intros j Hj; destruct (FC j Hj); lia).
            rewrite (chain_det _ _ _ _ HCH HCH2) in Hi. destruct (FC i Hi) as [Hsi _].
            destruct (path_ex n adj LA NB (fof s) (in_wf _ I) i ltac:(lia)) as (Q & HQ & _). pose proof (ex_path _ _ _ XX _ _ HQ) as HQ'. rewrite (path_det _ _ _ _ HPi HQ').
            exists k0, b, C', i. auto. }
    destruct (Nat.eqb_spec len (lf_max s4)) as [EM|NM].
    + exists (S (Nat.max (Nat.max F1 F3) F4)), s4. split; [intros fuel Hf; destruct fuel as [|fuel]; [lia|]; apply EU2; lia|]. split; auto. split; auto. split; auto.
      intros NST HC T0 T1 HO HMX R CR LR. destruct (K NST HC T0 T1 HO) as (CMP & _ & _ & HO4). apply (complete_paths (fof s4) len); auto. destruct C14 as [C14 _]. lia.
    + destruct cont4.
      2:{ exists (S (Nat.max (Nat.max F1 F3) F4)), s4. split; [intros fuel Hf; destruct fuel as [|fuel]; [lia|]; apply EU2; lia|]. split; auto. split; auto. split; auto. intros NST. specialize (S4 NST). discriminate. }
      destruct (J3 (CC eq_refl)) as [EF3 _].
      destruct (IH (S len) s4 c4 ltac:(lia) ltac:(lia) I4) as (F5 & s5 & E5 & I5 & C5 & R5 & J5).
      { intros _. rewrite EF4, EF3, GL. lia. }
      exists (S (Nat.max (Nat.max (Nat.max F1 F3) F4) F5)), s5. split; [intros fuel Hf; destruct fuel as [|fuel]; [lia|]; rewrite EU2 by lia; apply E5; lia|].
      split; auto. split; [eapply cfg_trans; eauto|]. split; [apply (reached_trans T OP ACC fin OL AL g W FG) with (y := xof s4); auto|].
      intros NST HC T0 T1 HO HMX R CR LR. destruct (K NST HC T0 T1 HO) as (CMP & T04 & T14 & HO4). destruct C14 as [C14 _].
      apply J5; auto; try lia. replace (S len - 1) with len by lia. auto.
Unshelve. all: exact adj.
Qed.
End L.
