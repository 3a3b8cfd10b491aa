(** Lemmas for C50 and C51: the constraint functions. *)
From Coq Require Import QArith Qcanon Sorted Permutation Lqa.
From Verif Require Import Base ShapeSpec ShapeProofs IndexingModel UtilModel FunctionsModel FunctionsSpec FunctionsProofs ConstraintModel ConstraintSpec ConstraintProofs ConstraintCounts.
Open Scope nat_scope.

(** ** LinearConstraintFunction *)
Lemma legal_reads : forall sh c x, lc_legal sh c -> in_shape sh x -> length (lc_coeffs c) = length (lc_ivs c) /\ Forall (fun v => Forall (fun p => fst p < length x) (iv_pairs v)) (lc_ivs c).
Proof.
  intros sh c x [HL HF] HX. split; auto. rewrite (in_shape_length _ _ HX). eapply Forall_impl; [|apply HF]. cbn. intros v [_ Hv]. eapply Forall_impl; [|apply Hv]. cbn. tauto.
Qed.
Lemma linear_ok : forall iv_sort TOL sh cs valid invalid, sorts iv_lt iv_sort -> (0 <= TOL)%Qc -> Forall (lc_legal sh) cs -> strict_weak iv_lt (all_ivs cs) ->
  exists f, lcf_new iv_sort sh cs valid invalid = Ret f /\ constraint_function (lcf_cf iv_sort TOL) f sh valid invalid TOL /\ lf_constraints f = cs /\
    StronglySorted (fun a b => iv_lt b a = false) (lf_list f) /\ (forall v, In v (lf_list f) -> In v (all_ivs cs)).
Proof.
  intros iv_sort TOL sh cs valid invalid HS HT HL HW. destruct (lcf_new_ok iv_sort HS sh cs valid invalid HW) as (l & E & ND & HI & SO). eexists. split; [exact E|].
  split; [|cbn [lf_constraints lf_list]; repeat split; auto; intros v Hv; apply HI; auto].
  unfold constraint_function. cbn [cf_ft cf_constraints cf_indicators cf_challenge cf_relaxed lcf_cf lcf_ft ft_call lf_constraints lf_list]. split.
  { apply (has_shape_list _ _ _ _ sh); auto. }
  split.
  { intros x HX. unfold lcf_call. cbn [lf_constraints lf_valid lf_invalid]. destruct (lcf_check_ok TOL cs x HT) as (b & Eb & Hb).
    { eapply Forall_impl; [|apply HL]. cbn. intros c Hc. eapply legal_reads; eauto. }
    rewrite Eb. cbn [bind]. eexists. split; [reflexivity|]. destruct b; split; intros H; auto. { exfalso. apply H, Hb. auto. } exfalso. apply Hb in H. discriminate. }
  split.
  { intros x tol HX Htol. unfold lcf_challenge. cbn [lf_constraints]. apply report_loop. intros out i Hi. rewrite (rd_Ret _ _ _ (nth i cs lc_default)) by (apply nth_error_nth'; auto). cbn [bind].
    assert (Hc : lc_legal sh (nth i cs lc_default)) by (rewrite Forall_forall in HL; apply HL, nth_In; auto). destruct (legal_reads _ _ _ Hc HX) as [R1 R2].
    rewrite lc_call_ok by auto. cbn [bind]. unfold violated. rewrite (nth_error_nth' cs lc_default Hi). destruct (weight_within (nth i cs lc_default) (indicated x) tol Htol) as [W1 W2]. rewrite W1.
    destruct (within_dec _ _ tol) as [W|W]. { rewrite app_nil_r. auto. } rewrite W2 by auto. auto. }
  split; [|split; auto].
  { intros val more tol Htol. unfold lcf_relaxed. cbn [lf_constraints lf_table]. apply report_loop. intros out i Hi. rewrite (rd_Ret _ _ _ (nth i cs lc_default)) by (apply nth_error_nth'; auto). cbn [bind].
    assert (Hc : lc_legal sh (nth i cs lc_default)) by (rewrite Forall_forall in HL; apply HL, nth_In; auto).
    set (c := nth i cs lc_default) in *. assert (Ec : nth_error cs i = Some c) by (apply nth_error_nth'; auto). unfold lcf_lookup. rewrite (rd_Ret _ _ _ (map (iv_find l) (lc_ivs c))) by (erewrite map_nth_error; eauto; auto).
    cbn [bind]. rewrite map_length. pose proof (relaxed_row l val more (lc_ivs c) (lc_coeffs c) [] [] 0%Qc) as R. cbn [app length] in R. rewrite R; clear R; auto.
    - cbn [bind]. unfold violated. rewrite Ec. rewrite <- (weight_relaxed c val tol Htol out i). unfold lhs. replace (0 + Qc_sum (map (fun p => snd p * val (fst p)) (combine (lc_ivs c) (lc_coeffs c))))%Qc with (Qc_sum (map (fun p => snd p * val (fst p))%Qc (combine (lc_ivs c) (lc_coeffs c)))) by qc.
      auto.
    - intros v Hv. apply HI. unfold all_ivs. apply in_concat. exists (lc_ivs c). split; auto. apply in_map. apply nth_error_In with i. auto.
    - apply Hc. }
  intros c v Hc Hv. apply HI. unfold all_ivs. apply in_concat. exists (lc_ivs c). split; auto. apply in_map. auto.
Qed.
(** ** Functions with a single constraint of the kind <= *)
Lemma le_violated : forall c val tol, (0 <= tol)%Qc -> lc_op c = LessEqual ->
  violated [c] val tol 0 = if Qc_lt tol (lhs c val - lc_bound c) then [(0, (lhs c val - lc_bound c)%Qc)] else [].
Proof.
  intros c val tol HT HO. unfold violated. cbn [nth_error]. pose proof (weight_relaxed c val tol HT [] 0) as W. cbv zeta in W. rewrite HO in W. cbn [app] in W. rewrite <- W. auto.
Qed.
Lemma le_report : forall c val tol, (0 <= tol)%Qc -> lc_op c = LessEqual -> reports [c] val tol (if Qc_lt tol (lhs c val - lc_bound c) then [(0, (lhs c val - lc_bound c)%Qc)] else []).
Proof. intros c val tol HT HO. rewrite <- le_violated by auto. apply single_report. Qed.
Lemma le_within : forall c val, lc_op c = LessEqual -> (Forall (fun c => within c val 0) [c] <-> (lhs c val <= lc_bound c)%Qc).
Proof.
  intros c val HO. assert (E : within c val 0 <-> (lhs c val <= lc_bound c)%Qc). { unfold within. rewrite HO. replace (lc_bound c + 0)%Qc with (lc_bound c) by qc. tauto. }
  split; intros H. { apply E. inversion H; auto. } constructor; auto. apply E; auto.
Qed.
(** ** LabelOrderFunction *)
Definition lo_sum (order : list Qc) (n1 n2 : nat) (val : iv -> Qc) : Qc :=
  (Qc_sum (map (fun i => nth i order 0 * val (iv_new1 0 i And))%Qc (seq 0 n1)) - Qc_sum (map (fun i => nth i order 0 * val (iv_new1 1 i And))%Qc (seq 0 n2)))%Qc.
Lemma add_loop : forall (mk : nat -> iv) (co : Qc -> Qc) order n s c, s + n <= length order ->
  foldM (fun c i => k <- rd order i ;; Ret (lc_add c (mk i) (co k))) (seq s n) c
  = Ret (mkLC (lc_ivs c ++ map mk (seq s n)) (lc_coeffs c ++ map (fun i => co (nth i order 0%Qc)) (seq s n)) (lc_bound c) (lc_op c)).
Proof.
  intros mk co order. induction n as [|n IH]; intros s c H; cbn [seq foldM map]. { rewrite !app_nil_r. destruct c; auto. }
  rewrite (rd_nth _ _ _ 0%Qc) by lia. cbn [bind]. rewrite IH by lia. unfold lc_add. cbn [lc_ivs lc_coeffs lc_bound lc_op]. rewrite <- !app_assoc. auto.
Qed.
Lemma lof_new_ok : forall n1 n2 order valid invalid, n1 <= length order -> n2 <= length order ->
  lof_new n1 n2 order valid invalid = Ret (mkLof n1 n2 order valid invalid
    (mkLC (map (fun i => iv_new1 0 i And) (seq 0 n1) ++ map (fun i => iv_new1 1 i And) (seq 0 n2))
          (map (fun i => nth i order 0%Qc) (seq 0 n1) ++ map (fun i => (- nth i order 0)%Qc) (seq 0 n2)) 0%Qc LessEqual)
    (map (fun i => iv_new1 0 i And) (seq 0 n1) ++ map (fun i => iv_new1 1 i And) (seq 0 n2))).
Proof.
  intros n1 n2 order valid invalid H1 H2. unfold lof_new. rewrite (add_loop (fun i => iv_new1 0 i And) (fun k => k)) by lia. cbn [bind]. rewrite (add_loop (fun i => iv_new1 1 i And) Qcopp) by lia. cbn [bind]. auto.
Qed.
Lemma combine_app : forall A B (a1 a2 : list A) (b1 b2 : list B), length a1 = length b1 -> combine (a1 ++ a2) (b1 ++ b2) = combine a1 b1 ++ combine a2 b2.
Proof. induction a1 as [|a a1 IH]; intros a2 [|b b1] b2 H; cbn in *; try lia; auto. f_equal. apply IH. lia. Qed.
Lemma combine_maps : forall A B C (f : A -> B) (g : A -> C) l, combine (map f l) (map g l) = map (fun i => (f i, g i)) l.
Proof. induction l as [|a l IH]; cbn; auto. f_equal; auto. Qed.
Lemma Qc_sum_opp : forall A (f : A -> Qc) l, Qc_sum (map (fun i => - f i)%Qc l) = (- Qc_sum (map f l))%Qc.
Proof. intros A f l. unfold Qc_sum. induction l as [|a l IH]; cbn [map fold_right]. { qc. } rewrite IH. qc. Qed.
Lemma lo_lhs : forall order n1 n2 b o val, lhs (mkLC (map (fun i => iv_new1 0 i And) (seq 0 n1) ++ map (fun i => iv_new1 1 i And) (seq 0 n2))
          (map (fun i => nth i order 0%Qc) (seq 0 n1) ++ map (fun i => (- nth i order 0)%Qc) (seq 0 n2)) b o) val = lo_sum order n1 n2 val.
Proof.
  intros. unfold lhs, lo_sum. cbn [lc_ivs lc_coeffs]. rewrite combine_app by (rewrite !map_length; auto). rewrite map_app, Qc_sum_app, !combine_maps, !map_map. cbn [fst snd].
  unfold Qcminus. rewrite <- Qc_sum_opp. f_equal. f_equal. apply map_ext. intros i. qc.
Qed.
Lemma sum_delta : forall (g : nat -> Qc) a n s, s <= a < s + n -> Qc_sum (map (fun i => g i * (if a =? i then 1 else 0))%Qc (seq s n)) = g a.
Proof.
  intros g a. assert (Z : forall n s, a < s -> Qc_sum (map (fun i => g i * (if a =? i then 1 else 0))%Qc (seq s n)) = 0%Qc).
  { induction n as [|n IH]; intros s H; unfold Qc_sum in *; cbn [seq map fold_right]; auto. rewrite IH by lia. destruct (Nat.eqb_spec a s); [lia|]. qc. }
  induction n as [|n IH]; intros s H; [lia|]. cbn [seq map]. unfold Qc_sum in *. cbn [fold_right]. destruct (Nat.eqb_spec a s) as [->|NE]. { rewrite Z by lia. qc. } rewrite IH by lia. qc.
Qed.
Lemma lo_indicated : forall order n1 n2 a b, a < n1 -> b < n2 -> lo_sum order n1 n2 (indicated [a; b]) = (nth a order 0 - nth b order 0)%Qc.
Proof.
  intros order n1 n2 a b Ha Hb. unfold lo_sum. rewrite <- (sum_delta (fun i => nth i order 0%Qc) a n1 0) by lia. rewrite <- (sum_delta (fun i => nth i order 0%Qc) b n2 0) by lia.
  apply (f_equal2 Qcminus); apply (f_equal Qc_sum); apply map_ext; intros i; unfold indicated, holds, iv_new1; cbn [iv_op iv_pairs forallb fst snd nth andb].
  - destruct (a =? i); auto.
  - destruct (b =? i); auto.
Qed.
Lemma lo_relaxed_loop1 : forall order y0 n s w, s + n <= length order -> s + n <= length y0 -> forall more,
  foldM (fun w i => k <- rd order i ;; v <- rd (y0 ++ more) i ;; Ret (w + k * v)%Qc) (seq s n) w = Ret (w + Qc_sum (map (fun i => nth i order 0 * nth i y0 0)%Qc (seq s n)))%Qc.
Proof.
  intros order y0. induction n as [|n IH]; intros s w H1 H2 more; cbn [seq foldM map]; unfold Qc_sum in *; cbn [fold_right]. { f_equal. qc. }
  rewrite (rd_nth _ _ _ 0%Qc) by lia. cbn [bind]. rewrite (rd_nth _ _ _ 0%Qc) by (rewrite app_length; lia). rewrite app_nth1 by lia. cbn [bind]. rewrite IH by lia. f_equal. qc.
Qed.
Lemma lo_relaxed_loop2 : forall order y0 y1 n s w, s + n <= length order -> s + n <= length y1 -> forall more,
  foldM (fun w i => k <- rd order i ;; v <- rd ((y0 ++ y1) ++ more) (length y0 + i) ;; Ret (w - k * v)%Qc) (seq s n) w = Ret (w - Qc_sum (map (fun i => nth i order 0 * nth i y1 0)%Qc (seq s n)))%Qc.
Proof.
  intros order y0 y1. induction n as [|n IH]; intros s w H1 H2 more; cbn [seq foldM map]; unfold Qc_sum in *; cbn [fold_right]. { f_equal. qc. }
  rewrite (rd_nth _ _ _ 0%Qc) by lia. cbn [bind]. rewrite (rd_nth _ _ _ 0%Qc) by (rewrite !app_length; lia). rewrite <- app_assoc, app_nth2_plus, app_nth1 by lia. cbn [bind]. rewrite app_assoc, IH by lia. f_equal. qc.
Qed.
Lemma nth_map_seq0 : forall A (f : nat -> A) n i d, i < n -> nth i (map f (seq 0 n)) d = f i.
Proof. intros A f n i d H. rewrite (nth_indep _ d (f 0)) by (rewrite map_length, seq_length; auto). rewrite map_nth, seq_nth; auto. Qed.
Lemma new1_NoDup : forall v n, NoDup (map (fun i => iv_new1 v i And) (seq 0 n)).
Proof. intros v n. apply FinFun.Injective_map_NoDup. { intros a b E. injection E. auto. } apply seq_NoDup. Qed.
Lemma order_ok : forall n1 n2 order valid invalid, n1 <= length order -> n2 <= length order ->
  exists f, lof_new n1 n2 order valid invalid = Ret f /\ constraint_function lof_cf f [n1; n2] valid invalid 0%Qc /\
    (forall a b, a < n1 -> b < n2 -> lof_call f [a; b] = Ret (if Qclt_le_dec (nth b order 0%Qc) (nth a order 0%Qc) then invalid else valid)).
Proof.
  intros n1 n2 order valid invalid H1 H2. rewrite lof_new_ok by auto. eexists. split; [reflexivity|]. set (c := mkLC _ _ _ _).
  assert (CALL : forall a b, a < n1 -> b < n2 -> lof_call (mkLof n1 n2 order valid invalid c (lc_ivs c)) [a; b] = Ret (if Qclt_le_dec (nth b order 0%Qc) (nth a order 0%Qc) then invalid else valid)).
  { intros a b Ha Hb. unfold lof_call. cbn [rd nth_error bind lo_order lo_valid lo_invalid]. change (rd [a; b] 0) with (Ret a). change (rd [a; b] 1) with (Ret b). cbn [bind]. rewrite !(rd_nth _ order _ 0%Qc) by lia. cbn [bind].
    unfold Qc_lt. destruct (Qclt_le_dec _ _); auto. }
  change (map (fun i => iv_new1 0 i And) (seq 0 n1) ++ map (fun i => iv_new1 1 i And) (seq 0 n2)) with (lc_ivs c). split; [|exact CALL].
  assert (LH : forall val, lhs c val = lo_sum order n1 n2 val) by (intros val; apply lo_lhs).
  unfold constraint_function. cbn [lof_cf lof_ft cf_ft cf_constraints cf_indicators cf_challenge cf_relaxed ft_call lo_constraint lo_list].
  assert (Split : forall x, in_shape [n1; n2] x -> exists a b, x = [a; b] /\ a < n1 /\ b < n2).
  { intros x H. inversion H as [|a ? x' ? Ha H']; subst. inversion H' as [|b ? x'' ? Hb H'']; subst. inversion H''; subst. eauto. }
  split. { split; auto. cbn [length]. intros i Hi. destruct i as [|[|i]]; auto. lia. }
  split. { intros x HX. destruct (Split x HX) as (a & b & -> & Ha & Hb). rewrite CALL by auto. eexists. split; [reflexivity|].
    rewrite (le_within c (indicated [a; b]) eq_refl), LH, lo_indicated by auto. change (lc_bound c) with 0%Qc.
    destruct (Qclt_le_dec (nth b order 0%Qc) (nth a order 0%Qc)) as [L|L]; split; intros H; auto; exfalso; [|apply H]; qc. }
  split. { intros x tol HX HT. destruct (Split x HX) as (a & b & -> & Ha & Hb). unfold lof_challenge. change (rd [a; b] 0) with (Ret a). change (rd [a; b] 1) with (Ret b). cbn [bind lo_order]. rewrite !(rd_nth _ order _ 0%Qc) by lia. cbn [bind].
    eexists. split; [reflexivity|]. pose proof (le_report c (indicated [a; b]) tol HT eq_refl) as R. rewrite LH, lo_indicated in R by auto. change (lc_bound c) with 0%Qc in R.
    replace (nth a order 0 - nth b order 0 - 0)%Qc with (nth a order 0 - nth b order 0)%Qc in R by qc. exact R. }
  split. { intros val more tol HT. unfold lof_relaxed. cbn [lo_order lo_n1 lo_n2]. unfold c. cbn [lc_ivs]. rewrite map_app, !map_map. set (y0 := map _ (seq 0 n1)). set (y1 := map _ (seq 0 n2)).
    assert (L0 : length y0 = n1) by (unfold y0; rewrite map_length, seq_length; auto). assert (L1 : length y1 = n2) by (unfold y1; rewrite map_length, seq_length; auto).
    pose proof (lo_relaxed_loop2 order y0 y1 n2 0 0%Qc ltac:(lia) ltac:(lia) more) as E2. rewrite L0 in E2. rewrite E2. cbn [bind]. rewrite <- app_assoc.
    rewrite (lo_relaxed_loop1 order y0 n1 0) by lia. cbn [bind]. eexists. split; [reflexivity|]. pose proof (le_report c val tol HT eq_refl) as R. rewrite LH in R. change (lc_bound c) with 0%Qc in R.
    assert (EQ : (lo_sum order n1 n2 val - 0 = 0 - Qc_sum (map (fun i => nth i order 0 * nth i y1 0) (seq 0 n2)) + Qc_sum (map (fun i => nth i order 0 * nth i y0 0) (seq 0 n1)))%Qc).
    { unfold lo_sum. rewrite (map_ext_in (fun i => nth i order 0 * nth i y1 0)%Qc (fun i => nth i order 0 * val (iv_new1 1 i And))%Qc (seq 0 n2)), (map_ext_in (fun i => nth i order 0 * nth i y0 0)%Qc (fun i => nth i order 0 * val (iv_new1 0 i And))%Qc (seq 0 n1)). { qc. }
      - intros i Hi. apply in_seq in Hi. unfold y0. rewrite nth_map_seq0 by lia. auto.
      - intros i Hi. apply in_seq in Hi. unfold y1. rewrite nth_map_seq0 by lia. auto. }
    rewrite EQ in R. exact R. }
  split. { apply NoDup_app_intro; try apply new1_NoDup. intros v Hv Hw. apply in_map_iff in Hv as (i & <- & _). apply in_map_iff in Hw as (j & E & _). discriminate. }
  intros c' v [<-|[]] Hv. auto.
Qed.
