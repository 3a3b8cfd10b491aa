(** Arc consistency of reparametrized models. *)
From Coq Require Import ZArith QArith Qcanon Sorted.
From Verif Require Import Base Values GmView GmViewSpec GmViewProofs ShapeSpec ShapeProofs UtilModel UtilProps ConstraintModel DualDecompModel FactorOpsModel FactorOpsSpec FactorOpsProofs FactorOpsAcc FactorOpsTables HoeProofs.
From Verif Require Import LprModel LprSpec LprProofs LprSerial.
Open Scope nat_scope.

Lemma qlt_iff : forall a b, Qc_lt a b = true <-> (a < b)%Qc.
Proof. intros a b. unfold Qc_lt. destruct (Qclt_le_dec a b) as [L|L]; split; auto; [discriminate|]. intros L'. exfalso. apply (Qclt_not_le _ _ L' L). Qed.
Lemma qlt_false : forall a b, Qc_lt a b = false <-> (b <= a)%Qc.
Proof. intros a b. unfold Qc_lt. destruct (Qclt_le_dec a b) as [L|L]; split; auto; [discriminate|]. intros L'. exfalso. apply (Qclt_not_le _ _ L L'). Qed.
Lemma qmul_nonneg : forall a b : Qc, (0 <= a)%Qc -> (0 <= b)%Qc -> (0 <= a * b)%Qc.
Proof. intros a b A B. unfold Qcle, Qcmult, Q2Qc in *. cbn [this] in *. rewrite !Qred_correct in *. apply Qmult_le_0_compat; auto. Qed.
Lemma better_irr : forall mx a, better mx a a = false.
Proof. intros [] a; unfold better; apply qlt_false; apply Qcle_refl. Qed.
Lemma better_tr : forall mx a b c, better mx a b = true -> better mx b c = true -> better mx a c = true.
Proof. intros [] a b c; unfold better; rewrite !qlt_iff; intros; eapply Qclt_trans; eauto. Qed.
Lemma better_tot : forall mx a b, better mx a b = false -> better mx b a = false -> a = b.
Proof. intros [] a b; unfold better; rewrite !qlt_false; intros; apply Qcle_antisym; auto. Qed.
Lemma better_ntr : forall mx a b c, better mx a b = false -> better mx b c = false -> better mx a c = false.
Proof. intros [] a b c; unfold better; rewrite !qlt_false; intros; eapply Qcle_trans; eauto. Qed.
Lemma obop_irr : forall mx a, obop mx a a = false. Proof. intros mx [a|]; cbn; auto. apply better_irr. Qed.
Lemma obop_tr : forall mx a b c, obop mx a b = true -> obop mx b c = true -> obop mx a c = true.
Proof. intros mx [a|] [b|] [c|]; cbn; auto; try discriminate. apply better_tr. Qed.
Lemma obop_tot : forall mx a b, True -> True -> obop mx a b = false -> obop mx b a = false -> a = b.
Proof. intros mx [a|] [b|] _ _; cbn; auto; try discriminate. intros. f_equal. eapply better_tot; eauto. Qed.

Lemma best_fold : forall mx (F : list nat -> Qc) cs v0, 
  let w := fold_left (fun acc c => if better mx (F c) acc then F c else acc) cs v0 in
  (w = v0 \/ exists c, In c cs /\ F c = w) /\ better mx v0 w = false /\ forall c, In c cs -> better mx (F c) w = false.
Proof.
  intros mx F cs. induction cs as [|c cs IH]; intros v0 w.
  - subst w. cbn. split; auto. split; [apply better_irr|intros c []].
  - subst w. cbn [fold_left]. destruct (better mx (F c) v0) eqn:E.
    + destruct (IH (F c)) as (A & B & C). set (w := fold_left _ cs (F c)) in *. split; [right; destruct A as [A|(c' & I & A)]; [exists c; split; [left; auto|auto]|exists c'; split; [right; auto|auto]]|].
      assert (V : better mx v0 (F c) = false). { destruct (better mx v0 (F c)) eqn:Q; auto. pose proof (better_tr mx _ _ _ E Q) as R. rewrite better_irr in R. discriminate. }
      split; [eapply better_ntr; eauto|]. intros c' [<-|I]; auto.
    + destruct (IH v0) as (A & B & C). set (w := fold_left _ cs v0) in *. split; [destruct A as [A|(c' & I & A)]; [left; auto|right; exists c'; split; [right; auto|auto]]|].
      split; auto. intros c' [<-|I]; auto. eapply better_ntr; eauto.
Qed.

Section A.
Variable g : gmv Qc.
Hypothesis W : wf_gmv g.
Hypothesis NC : no_constants g.
Variables (mx : bool) (eps : Qc).
Hypothesis EP : (0 <= eps)%Qc.
Variable d : duals.
Hypothesis SD : shaped g d.
Let n := length (v_labels g).
Let nf := length (v_factors g).
Definition shp (f : nat) : list nat := at_vars (v_labels g) (vars_of g f).
Definition is_best (f : nat) (c : list nat) : Prop := in_shape (shp f) c /\ forall c', in_shape (shp f) c' -> better mx (repaval g d f c') (repaval g d f c) = false.

Lemma label_pos : forall v, v < n -> 0 < nth v (v_labels g) 0.
Proof. intros v H. destruct W as [_ P]. unfold positive in P. rewrite Forall_forall in P. apply P. apply nth_In. auto. Qed.
Lemma shp_pos : forall f, positive (shp f).
Proof.
  intros f. destruct (vars_ok g W f) as [_ F]. unfold shp, at_vars, positive. rewrite Forall_forall in *. intros a I. apply in_map_iff in I. destruct I as (v & <- & I).
  apply label_pos. apply F. auto.
Qed.
Lemma coords_all : forall sh c, positive sh -> In c (map (coord_of sh) (seq 0 (size_of sh))) <-> in_shape sh c.
Proof.
  intros sh c P. rewrite in_map_iff. split.
  - intros (k & <- & _). apply coord_of_in_shape. auto.
  - intros S. exists (index_of sh c). split; [apply coord_of_index; auto|]. apply in_seq. pose proof (index_of_lt sh c S). lia.
Qed.
Lemma shp_len : forall f, length (shp f) = length (vars_of g f). Proof. intros f. unfold shp, at_vars. apply map_length. Qed.

Lemma repa_best_ok : forall f, f < nf -> exists c, repa_best g mx d f (shp f) = Ret (repaval g d f c, c) /\ is_best f c.
Proof.
  intros f H. pose proof (vars_some g NC f H) as NE. pose proof (shp_pos f) as P. set (sh := shp f) in *.
  unfold repa_best, AccumulateAllState, f_dim. cbn [f_shape repa_fn f_read]. rewrite shape_size_spec.
  destruct (Nat.eqb_spec (length sh) 0) as [Z|Z]; [unfold sh in Z; rewrite shp_len in Z; destruct (vars_of g f); [contradiction|discriminate]|]. cbn [negb].
  rewrite (sweep_state _ sh _ (fun acc k => acc_feed (option Qc) (obop mx) (oop3 mx) acc (Some (repaval g d f (coord_of sh k))) (coord_of sh k))); auto.
  2: { intros k s Hk. pose proof (coord_of_in_shape sh k P) as IS. rewrite firstn_all2 by (rewrite (in_shape_length _ _ IS); lia).
       rewrite (view_ok g W d f _ SD NE IS). cbn [bind]. auto. }
  cbn [bind]. rewrite feed_states.
  set (l := map (fun k => (Some (repaval g d f (coord_of sh k)), coord_of sh k)) (seq 0 (size_of sh))).
  pose proof (acc_run_spec (option Qc) (fun _ => True) (obop mx) (obop_irr mx) (obop_tr mx) (obop_tot mx) l None [] I) as R.
  cbv zeta in R. destruct R as (_ & _ & R2 & R3); [apply Forall_forall; auto|].
  change (acc_init (option Qc) None) with (mkAcc (@None Qc) []). change (fun a b : option Qc => if obop mx a b then a else b) with (oop3 mx) in R2, R3.
  set (r := fold_left _ l (mkAcc None [])) in *. cbn [bind].
  assert (I0 : In (Some (repaval g d f (coord_of sh 0)), coord_of sh 0) l).
  { unfold l. apply in_map_iff. exists 0. split; auto. apply in_seq. pose proof (size_of_pos sh P). lia. }
  assert (R4 : In (acc_value r, acc_state r) l).
  { destruct R3 as [[E _]|[_ (l1 & l2 & E & _)]]; [|rewrite E; apply in_or_app; right; left; auto]. specialize (R2 _ I0). rewrite E in R2. discriminate. }
  unfold l in R4. apply in_map_iff in R4. destruct R4 as (k & E & Ik). injection E as E1 E2. rewrite <- E1, <- E2. exists (coord_of sh k). split; auto.
  split; [apply coord_of_in_shape; auto|]. intros c' IC. fold sh in IC. apply coords_all in IC; auto. apply in_map_iff in IC. destruct IC as (k' & <- & Ik').
  specialize (R2 (Some (repaval g d f (coord_of sh k')), coord_of sh k')). cbn [fst] in R2. rewrite <- E1 in R2. cbn [obop] in R2. apply R2. unfold l. apply in_map_iff. exists k'. auto.
Qed.
Lemma fold_seq_map : forall {A B} (h : A -> B -> A) (k : nat -> B) l s, fold_left (fun a i => h a (k i)) l s = fold_left h (map k l) s.
Proof. intros A B h k l. induction l as [|i l IH]; intros s; cbn; auto. Qed.
Lemma repa_worst_ok : forall f, f < nf -> exists w, repa_worst g mx d f (shp f) = Ret w /\ worst_of mx (shp f) (repaval g d f) w.
Proof.
  intros f H. pose proof (vars_some g NC f H) as NE. pose proof (shp_pos f) as P. set (sh := shp f) in *. unfold repa_worst. pose proof (positive_in_shape_0 sh P) as Z0.
  rewrite (view_ok g W d f _ SD NE Z0). cbn [bind]. rewrite shape_size_spec.
  rewrite (sweep_state _ sh _ (fun acc k => if better (negb mx) (repaval g d f (coord_of sh k)) acc then repaval g d f (coord_of sh k) else acc)); auto.
  2: { intros k s Hk. rewrite (view_ok g W d f _ SD NE (coord_of_in_shape sh k P)). cbn [bind]. auto. }
  rewrite (fold_seq_map (fun acc c => if better (negb mx) (repaval g d f c) acc then repaval g d f c else acc) (coord_of sh)).
  destruct (best_fold (negb mx) (repaval g d f) (map (coord_of sh) (seq 0 (size_of sh))) (repaval g d f (repeat 0 (length sh)))) as (A & B & C).
  eexists. split; [reflexivity|]. set (w := fold_left _ _ _) in *. split.
  - destruct A as [A|(c & I & A)]; [exists (repeat 0 (length sh)); auto|exists c; split; auto]. apply coords_all in I; auto.
  - intros c IC. apply coords_all in IC; auto. specialize (C c IC). destruct mx; exact C.
Qed.
Lemma worst_unique : forall sh F w w', worst_of mx sh F w -> worst_of mx sh F w' -> w = w'.
Proof. intros sh F w w' [(c & S & <-) H] [(c' & S' & <-) H']. apply (better_tot mx); auto. Qed.

(** The first loop *)
Definition is_unary (f : nat) : bool := length (vars_of g f) =? 1.
Record arc_ok (m : nat) (s : arc) : Prop := {
  ao_v : length (ar_values s) = m; ao_l : length (ar_labelings s) = m; ao_w : length (ar_worst s) = m; ao_loc : length (ar_local s) = n;
  ao_best : forall f, f < m -> is_best f (nth f (ar_labelings s) []) /\ nth f (ar_values s) 0%Qc = repaval g d f (nth f (ar_labelings s) []);
  ao_worst : forall f, f < m -> is_unary f = false -> worst_of mx (shp f) (repaval g d f) (nth f (ar_worst s) 0%Qc);
  ao_lab : forall v, v < n -> nth v (ar_local s) 0 < nth v (v_labels g) 0;
  ao_un : ar_unary s = filter is_unary (seq 0 m);
  ao_opt : forall f v, f < m -> vars_of g f = [v] -> forall l, l < nth v (v_labels g) 0 -> better mx (varval g d v l) (varval g d v (nth v (ar_local s) 0)) = false }.
Lemma nth_snoc : forall {A} (l : list A) a x0 i, nth i (l ++ [a]) x0 = if i =? length l then a else nth i l x0.
Proof.
  intros A l a x0 i. destruct (Nat.eqb_spec i (length l)) as [->|NE].
  - rewrite app_nth2, Nat.sub_diag; auto.
  - destruct (Nat.lt_ge_cases i (length l)); [rewrite app_nth1; auto|]. rewrite app_nth2 by auto. rewrite (nth_overflow l) by lia. destruct (i - length l) as [|[|j]] eqn:E; auto; lia.
Qed.
Lemma unary_single : forall f, is_unary f = true -> exists v, vars_of g f = [v] /\ v < n.
Proof.
  intros f U. apply Nat.eqb_eq in U. destruct (vars_ok g W f) as [_ F]. destruct (vars_of g f) as [|v [|? ?]]; try discriminate. exists v. split; auto. inversion F; auto.
Qed.
Lemma shp_rd : forall f, mapM (rd (v_labels g)) (vars_of g f) = Ret (shp f).
Proof. intros f. destruct (vars_ok g W f) as [_ F]. apply mapM_rd. auto. Qed.
Lemma arc_first_ok : forall m s, m < nf -> arc_ok m s -> exists s', arc_first g mx d s m = Ret s' /\ arc_ok (S m) s'.
Proof.
  intros m s H K. destruct K as [V1 V2 V3 V4 B1 B2 B3 B4 B5]. unfold arc_first. rewrite (rd_factor g) by auto. cbn [bind fst]. rewrite shp_rd. cbn [bind].
  destruct (repa_best_ok m H) as (c & EC & BC). rewrite EC. cbn [bind]. fold (is_unary m).
  assert (FS : filter is_unary (seq 0 (S m)) = filter is_unary (seq 0 m) ++ (if is_unary m then [m] else [])).
  { rewrite seq_S, filter_app. cbn. destruct (is_unary m); auto. }
  assert (BB : forall f, f < S m -> is_best f (nth f (ar_labelings s ++ [c]) []) /\ nth f (ar_values s ++ [repaval g d m c]) 0%Qc = repaval g d f (nth f (ar_labelings s ++ [c]) [])).
  { intros f Hf. rewrite !nth_snoc, V1, V2. destruct (Nat.eqb_spec f m) as [->|]; auto. apply B1. lia. }
  destruct (is_unary m) eqn:U.
  - destruct (unary_single m U) as (v & EV & Hv). rewrite EV. cbn [rd nth_error bind].
    assert (SC : exists l, c = [l] /\ l < nth v (v_labels g) 0).
    { destruct BC as [S _]. unfold shp in S. rewrite EV in S. cbn [at_vars map] in S. inversion S as [|? ? ? ? L S' ]; subst. inversion S'; subst. eauto. }
    destruct SC as (l & -> & Hl). cbn [rd nth_error bind]. rewrite wr_Ret by (rewrite V4; auto). cbn [bind]. eexists. split; [reflexivity|].
    assert (OV : forall l', l' < nth v (v_labels g) 0 -> better mx (varval g d v l') (varval g d v l) = false).
    { intros l' Hl'. destruct BC as [_ BC]. specialize (BC [l']). unfold repaval in BC. unfold shp, is_unary in *. rewrite EV in BC. cbn in BC. apply BC. constructor; auto. }
    split; cbn [ar_values ar_labelings ar_local ar_unary ar_worst]; rewrite ?app_length, ?length_upd; cbn [length]; auto; try lia.
    + intros f Hf Uf. rewrite nth_snoc, V3. destruct (Nat.eqb_spec f m) as [->|]; [congruence|]. apply B2; auto. lia.
    + intros u Hu. destruct (Nat.eq_dec v u) as [->|NE]; [rewrite nth_upd_eq by (rewrite V4; auto); auto|rewrite nth_upd_neq; auto].
    + rewrite FS, B4. auto.
    + intros f u Hf EF l' Hl'. destruct (Nat.eq_dec v u) as [->|NE].
      * rewrite nth_upd_eq by (rewrite V4; auto). auto.
      * rewrite nth_upd_neq by auto. apply (B5 f); auto. destruct (Nat.eq_dec f m) as [->|]; [congruence|lia].
  - destruct (repa_worst_ok m H) as (w & EW & WW). rewrite EW. cbn [bind]. eexists. split; [reflexivity|].
    split; cbn [ar_values ar_labelings ar_local ar_unary ar_worst]; rewrite ?app_length; cbn [length]; auto; try lia.
    + intros f Hf Uf. rewrite nth_snoc, V3. destruct (Nat.eqb_spec f m) as [->|]; auto. apply B2; auto. lia.
    + rewrite FS, B4, app_nil_r. auto.
    + intros f u Hf EF. apply (B5 f); auto. destruct (Nat.eq_dec f m) as [->|]; [|lia]. unfold is_unary in U. rewrite EF in U. discriminate.
Qed.
Lemma arc_loop : exists s, foldM (arc_first g mx d) (seq 0 (lnf g)) (mkArc [] [] (repeat 0 (length (v_labels g))) [] []) = Ret s /\ arc_ok nf s.
Proof.
  assert (G : forall m, m <= nf -> exists s, foldM (arc_first g mx d) (seq 0 m) (mkArc [] [] (repeat 0 (length (v_labels g))) [] []) = Ret s /\ arc_ok m s).
  { induction m as [|m IH]; intros H.
    - eexists. split; [reflexivity|]. split; cbn; auto; try (intros; lia). apply repeat_length. intros v Hv. rewrite nth_repeat. apply label_pos; auto.
    - destruct IH as (s & E & K); [lia|]. destruct (arc_first_ok m s) as (s' & E' & K'); auto. exists s'. split; auto. rewrite seq_S, foldM_app, E. cbn [bind foldM plus]. rewrite E'. auto. }
  apply G. auto.
Qed.

(** The second loop *)
Section Second.
Variable s : arc.
Hypothesis K : arc_ok nf s.
Definition high (f : nat) : bool := 2 <=? length (vars_of g f).
Definition slack (f : nat) : Qc := (Qc_of_nat (length (vars_of g f)) * Qc_fabs (nth f (ar_worst s) 0) * eps)%Qc.
Definition at_loc (f : nat) : list nat := at_vars (ar_local s) (vars_of g f).
Definition agree (f v : nat) : bool := nth (find_pos (vars_of g f) v) (nth f (ar_labelings s) []) 0 =? nth v (ar_local s) 0.
Definition close (f : nat) : bool := Qc_lt (Qc_fabs (repaval g d f (at_loc f) - nth f (ar_values s) 0%Qc)) (slack f).
Lemma loc_labeling : labeling g (ar_local s).
Proof.
  unfold labeling, in_shape. destruct K as [_ _ _ V4 _ _ B3 _ _]. revert V4 B3. unfold n. generalize (ar_local s) (v_labels g). clear.
  induction l as [|a l IH]; intros [|b l0] E H; cbn in E; try lia; constructor. apply (H 0). cbn. lia. apply IH. lia. intros v Hv. apply (H (S v)). cbn. lia.
Qed.
Lemma arc_factors_ok : forall v fs, v < n -> (forall f, In f fs -> f < nf /\ In v (vars_of g f)) ->
  arc_factors g eps d s v fs = Ret (forallb (fun f => negb (high f) || agree f v || close f) fs).
Proof.
  intros v fs Hv. induction fs as [|f fs IH]; intros HF; cbn [arc_factors forallb]; auto. destruct (HF f (or_introl eq_refl)) as [Hf IV].
  assert (HF' : forall f, In f fs -> f < nf /\ In v (vars_of g f)) by (intros; apply HF; right; auto). specialize (IH HF').
  rewrite (rd_factor g) by auto. cbn [bind fst]. unfold high at 1. destruct (Nat.leb_spec (length (vars_of g f)) 1) as [L|L].
  - destruct (Nat.leb_spec 2 (length (vars_of g f))); [lia|]. cbn [negb orb andb]. auto.
  - destruct (Nat.leb_spec 2 (length (vars_of g f))); [|lia]. cbn [negb orb]. destruct (find_pos_ok g (vars_of g f) v IV) as [FP _].
    destruct (ao_best _ _ K f Hf) as [[BS _] EQ].
    rewrite (rd_nth _ (ar_labelings s) f []) by (rewrite (ao_l _ _ K); auto). cbn [bind].
    rewrite (rd_nth _ (nth f (ar_labelings s) []) _ 0) by (rewrite (in_shape_length _ _ BS), shp_len; auto). cbn [bind].
    rewrite (rd_nth _ (ar_local s) v 0) by (rewrite (ao_loc _ _ K); auto). cbn [bind]. fold (agree f v). destruct (agree f v); cbn [orb andb]; auto.
    destruct (vars_ok g W f) as [_ F]. rewrite mapM_rd by (rewrite (ao_loc _ _ K); auto). cbn [bind]. fold (at_loc f).
    rewrite (view_ok g W d f _ SD); [|destruct (vars_of g f); [destruct IV|discriminate]|apply (at_vars_shape g W); apply loc_labeling]. cbn [bind].
    rewrite (rd_nth _ (ar_values s) f 0%Qc) by (rewrite (ao_v _ _ K); auto). cbn [bind]. rewrite (rd_nth _ (ar_worst s) f 0%Qc) by (rewrite (ao_w _ _ K); auto). cbn [bind].
    fold (Qc_of_nat (length (vars_of g f))). fold (slack f). fold (close f). destruct (close f); cbn [andb]; auto.
Qed.
Definition var_ok (v : nat) : bool := forallb (fun f => negb (high f) || agree f v || close f) (v_adj Qc g v).
Lemma second_ok : forall us mask, (forall u, In u us -> u < nf /\ is_unary u = true) -> length mask = n -> exists mask', foldM (arc_second g eps d s) us mask = Ret mask' /\ length mask' = n /\
  forall v, v < n -> nth v mask' true = true -> nth v mask true = true /\ forall u, In u us -> vars_of g u = [v] -> var_ok v = true.
Proof.
  induction us as [|u us IH]; intros mask HU LM.
  - exists mask. split; [reflexivity|]. split; [exact LM|]. intros v Hv E. split; [exact E|]. intros u [].
  - destruct (HU u (or_introl eq_refl)) as [Hu UU]. destruct (unary_single u UU) as (v & EV & Hv). cbn [foldM]. unfold arc_second at 1. rewrite (rd_factor g) by auto. cbn [bind fst]. rewrite EV. cbn [rd nth_error bind].
    rewrite arc_factors_ok; auto. 2: { intros f I. apply (adj_In g) in I. destruct I as [I M]. split; auto. apply mem_In. auto. }
    cbn [bind]. fold (var_ok v). destruct (var_ok v) eqn:VO; cbn [bind].
    + destruct (IH mask) as (mask' & E & LM' & R); auto; [intros; apply HU; right; auto|]. exists mask'. split; auto. split; auto. intros v' Hv' Em. destruct (R v' Hv' Em) as [R1 R2]. split; auto.
      intros u' [<-|I] EV'; [congruence|]. apply (R2 u'); auto.
    + rewrite wr_Ret by (rewrite LM; auto). cbn [bind]. destruct (IH (upd mask v false)) as (mask' & E & LM' & R); [intros; apply HU; right; auto|rewrite length_upd; auto|].
      exists mask'. split; auto. split; auto. intros v' Hv' Em. destruct (R v' Hv' Em) as [R1 R2]. destruct (Nat.eq_dec v v') as [<-|NE].
      * rewrite nth_upd_eq in R1 by (rewrite LM; auto). discriminate.
      * rewrite nth_upd_neq in R1 by auto. split; auto. intros u' [<-|I] EV'; [congruence|]. apply (R2 u'); auto.
Qed.

Lemma fabs_bound : forall a b : Qc, (Qc_fabs a <= b)%Qc -> (a <= b)%Qc /\ (- b <= a)%Qc.
Proof.
  intros a b. unfold Qc_fabs. destruct (Qc_lt a 0%Qc) eqn:E; [apply qlt_iff in E|apply qlt_false in E]; intros H; split; qlra.
Qed.
Lemma fabs_nonneg : forall a, (0 <= Qc_fabs a)%Qc.
Proof. intros a. unfold Qc_fabs. destruct (Qc_lt a 0%Qc) eqn:E; [apply qlt_iff in E|apply qlt_false in E]; qlra. Qed.
Lemma of_nat_nonneg : forall k, (0 <= Qc_of_nat k)%Qc.
Proof. induction k as [|k IH]; [unfold Qcle; cbn; discriminate|]. rewrite Qc_of_nat_S. assert (O : (0 <= 1)%Qc) by (unfold Qcle; cbn; discriminate). qlra. Qed.
Lemma slack_nonneg : forall f, (0 <= slack f)%Qc.
Proof. intros f. unfold slack. apply qmul_nonneg; [apply qmul_nonneg; [apply of_nat_nonneg|apply fabs_nonneg]|exact EP]. Qed.
Lemma within_trans : forall t a b c, within mx t a b -> better mx c b = false -> within mx t a c.
Proof. intros t a b c. unfold within, better. destruct mx; rewrite qlt_false; intros; qlra. Qed.
Lemma within_sum : forall (l : list nat) t a b, (forall f, In f l -> within mx (t f) (a f) (b f)) -> within mx (sum_over l t) (sum_over l a) (sum_over l b).
Proof.
  intros l t a b H. induction l as [|f l IH]; [unfold within; cbn; destruct mx; cbn; discriminate|]. rewrite !sum_cons.
  pose proof (H f (or_introl eq_refl)) as H1. specialize (IH (fun f I => H f (or_intror I))). unfold within in *. destruct mx; generalize dependent (sum_over l t); generalize dependent (sum_over l a); generalize dependent (sum_over l b); intros; qlra.
Qed.

Hypothesis CV : covered g.
Lemma linked_unary : forall f v, f < nf -> high f = true -> In v (vars_of g f) -> exists u, u < nf /\ vars_of g u = [v].
Proof.
  intros f v Hf HH I. assert (L : linked g v).
  { unfold vars_of in I, HH. unfold high, vars_of in HH. destruct (nth_error (v_factors g) f) as [fc|] eqn:E; [|destruct I]. exists fc. split; [eapply nth_error_In; eauto|]. split; auto. apply Nat.leb_le. auto. }
  specialize (CV v L). unfold unaries in CV. destruct (filter _ (v_factors g)) as [|fc l] eqn:E; [cbn in CV; lia|].
  assert (I2 : In fc (filter (fun fc : list nat * (list nat -> Qc) => match fst fc with [u] => u =? v | _ => false end) (v_factors g))) by (rewrite E; left; auto).
  apply filter_In in I2. destruct I2 as [I2 I3]. apply In_nth_error in I2. destruct I2 as (u & I2). exists u. split; [apply nth_error_Some; congruence|].
  unfold vars_of. rewrite I2. destruct (fst fc) as [|w [|? ?]]; try discriminate. apply Nat.eqb_eq in I3. subst. auto.
Qed.
Lemma factor_within : forall f c, f < nf -> (forall u v, u < nf -> vars_of g u = [v] -> var_ok v = true) -> in_shape (shp f) c ->
  within mx (if high f then slack f else 0%Qc) (repaval g d f (at_loc f)) (repaval g d f c).
Proof.
  intros f c Hf AV SC. destruct (ao_best _ _ K f Hf) as [[BS BB] EQ]. destruct (high f) eqn:HH.
  - eapply within_trans; [|apply (BB c SC)]. rewrite <- EQ.
    assert (G : close f = true \/ forall v, In v (vars_of g f) -> agree f v = true).
    { destruct (close f) eqn:C; auto. right. intros v I. destruct (linked_unary f v Hf HH I) as (u & Hu & EU). specialize (AV u v Hu EU). unfold var_ok in AV. rewrite forallb_forall in AV.
      assert (IA : In f (v_adj Qc g v)) by (apply (adj_In g); split; auto; apply mem_In; auto). specialize (AV f IA). cbv beta in AV. rewrite HH, C in AV. cbn [negb orb] in AV. rewrite orb_false_r in AV. auto. }
    destruct G as [C|C].
    + unfold close in C. apply qlt_iff in C. apply Qclt_le_weak in C. apply fabs_bound in C. destruct C as [C1 C2]. unfold within. revert C1 C2. generalize (slack f) (nth f (ar_values s) 0%Qc) (repaval g d f (at_loc f)). intros. destruct mx; qlra.
    + assert (E : at_loc f = nth f (ar_labelings s) []).
      { unfold at_loc. pose proof (in_shape_length _ _ BS) as LL. rewrite shp_len in LL. apply (nth_ext _ _ 0 0); [unfold at_vars; rewrite map_length; auto|]. intros k Hk. unfold at_vars in Hk. rewrite map_length in Hk.
        specialize (C (nth k (vars_of g f) 0) (nth_In _ _ Hk)). unfold agree in C. rewrite (find_pos_nth g _ _ (vars_NoDup g W f) Hk) in C. apply Nat.eqb_eq in C. rewrite C. unfold at_vars.
        rewrite (nth_indep _ 0 (nth 0 (ar_local s) 0)) by (rewrite map_length; auto). apply (map_nth (fun v => nth v (ar_local s) 0)). }
      rewrite E, EQ. pose proof (slack_nonneg f) as SN. unfold within. revert SN. generalize (slack f) (repaval g d f (nth f (ar_labelings s) [])). intros. destruct mx; qlra.
  - assert (U : is_unary f = true). { pose proof (vars_some g NC f Hf). unfold high in HH. apply Nat.leb_gt in HH. unfold is_unary. apply Nat.eqb_eq. destruct (vars_of g f); [contradiction|cbn in *; lia]. }
    destruct (unary_single f U) as (v & EV & Hv). unfold at_loc, repaval. unfold is_unary in U. rewrite U, EV. cbn [at_vars map nth]. unfold shp in SC. rewrite EV in SC. inversion SC as [|l ? ? ? L S']; subst. cbn [nth].
    pose proof (ao_opt _ _ K f v Hf EV l L) as O. unfold within, better in *. destruct mx; apply qlt_false in O; qlra.
Qed.
End Second.

Lemma arc_total : exists mask x s, arc_ok nf s /\ getArcConsistency g mx eps d = Ret (mask, x) /\ x = ar_local s /\ length mask = n /\ labeling g x /\
  (Forall (eq true) mask -> forall u v, u < nf -> vars_of g u = [v] -> var_ok s v = true).
Proof.
  destruct arc_loop as (s & E & K). unfold getArcConsistency. rewrite E. cbn [bind].
  destruct (second_ok s K (ar_unary s) (repeat true (length (v_labels g)))) as (mask & E2 & LM & R).
  - intros u I. rewrite (ao_un _ _ K) in I. apply filter_In in I. destruct I as [I U]. apply in_seq in I. split; auto. lia.
  - apply repeat_length.
  - rewrite E2. cbn [bind]. exists mask, (ar_local s), s. split; [auto|]. split; [auto|]. split; [auto|]. split; [auto|]. split; [apply loc_labeling; auto|].
    intros F u v Hu EV. assert (Hv : v < n). { destruct (vars_ok g W u) as [_ FV]. rewrite EV in FV. inversion FV; auto. }
    destruct (R v Hv) as [_ R2].
    + destruct (nth_in_or_default v mask true) as [I|D]; auto. rewrite Forall_forall in F. symmetry. apply F. auto.
    + apply (R2 u); auto. rewrite (ao_un _ _ K). apply filter_In. split; [apply in_seq; lia|]. unfold is_unary. rewrite EV. auto.
Qed.
End A.
