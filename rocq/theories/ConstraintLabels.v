(** Lemmas for C50 and C51: the function that limits the number of labels, the label costs and the sum constraint. *)
From Coq Require Import QArith Qcanon Sorted Permutation Lqa.
From Verif Require Import Base ShapeSpec ShapeProofs IndexingModel UtilModel FunctionsModel FunctionsSpec FunctionsProofs ConstraintModel ConstraintSpec ConstraintProofs ConstraintCounts ConstraintFuncs.
Open Scope nat_scope.

Lemma pair_ins_first : forall p l, Forall (fun q => pair_le p q = true) l -> pair_ins p l = p :: l.
Proof. intros p [|q l] H; cbn; auto. inversion H as [|? ? E]; subst. rewrite E. auto. Qed.
Lemma pair_sort_id : forall l, StronglySorted (fun p q => pair_le p q = true) l -> pair_sort l = l.
Proof. induction 1 as [|p l S IH F]; cbn; auto. change (fold_right pair_ins [] l) with (pair_sort l). rewrite IH. apply pair_ins_first. auto. Qed.
Definition label_pairs (sh : list nat) (i n : nat) : list (nat * nat) := map (fun j => (j, i)) (filter (fun j => i <? nth j sh 0) (seq 0 n)).
Lemma seq_sorted : forall n s, StronglySorted lt (seq s n).
Proof. induction n as [|n IH]; intros s; cbn; constructor; auto. apply Forall_forall. intros x Hx. apply in_seq in Hx. lia. Qed.
Lemma filter_sorted : forall A (R : A -> A -> Prop) f l, StronglySorted R l -> StronglySorted R (filter f l).
Proof.
  intros A R f l. induction 1 as [|a l S IH F]; cbn; [constructor|]. destruct (f a); auto. constructor; auto. apply Forall_forall. intros x Hx. apply filter_In in Hx as [Hx _]. rewrite Forall_forall in F. auto.
Qed.
Lemma label_pairs_sorted : forall sh i n, StronglySorted (fun p q => pair_le p q = true) (label_pairs sh i n).
Proof.
  intros sh i n. unfold label_pairs. pose proof (filter_sorted _ _ (fun j => i <? nth j sh 0) _ (seq_sorted n 0)) as S. revert S. generalize (filter (fun j => i <? nth j sh 0) (seq 0 n)). intros k S. induction S as [|a l S IH F]; cbn; constructor; auto.
  apply Forall_forall. intros q Hq. apply in_map_iff in Hq as (b & <- & Hb). rewrite Forall_forall in F. specialize (F _ Hb). unfold pair_le. cbn [fst snd]. apply Nat.ltb_lt in F. rewrite F. auto.
Qed.
Lemma label_pairs_S : forall sh i n, label_pairs sh i (S n) = if i <? nth n sh 0 then label_pairs sh i n ++ [(n, i)] else label_pairs sh i n.
Proof. intros. unfold label_pairs. rewrite seq_S, filter_app, map_app. cbn [filter plus]. destruct (i <? nth n sh 0); cbn [map]; auto. apply app_nil_r. Qed.
Definition label_iv (sh : list nat) (i : nat) : iv := mkIV Or (label_pairs sh i (length sh)).
Lemma indicator_ok : forall s sh i, vs_ok s sh -> i < vs_max s -> nlf_indicator s i = Ret (label_iv sh i).
Proof.
  intros s sh i (H1 & H2 & H3 & _) Hi. unfold nlf_indicator, label_iv. rewrite H1.
  assert (G : forall n, n <= length sh -> foldM (fun v j => if vs_same s then Ret (iv_add v j i) else n0 <- rd (vs_shape s) j;; (if i <? n0 then Ret (iv_add v j i) else Ret v)) (seq 0 n) (iv_setOp iv_default Or) = Ret (mkIV Or (label_pairs sh i n))).
  { induction n as [|n IH]; intros Hn; auto. rewrite seq_S, foldM_app, IH by lia. cbn [bind foldM plus].
    assert (A : i < nth n sh 0 -> iv_add (mkIV Or (label_pairs sh i n)) n i = mkIV Or (label_pairs sh i (S n))).
    { intros HL. unfold iv_add. cbn [iv_op iv_pairs]. f_equal. pose proof (label_pairs_S sh i n) as E. apply Nat.ltb_lt in HL. rewrite HL in E. rewrite <- E. apply pair_sort_id, label_pairs_sorted. }
    destruct (vs_same s) eqn:ES.
    - rewrite A; auto. rewrite (H2 eq_refl), H1. rewrite (nth_indep _ 0 (vs_max s)) by (rewrite repeat_length; lia). rewrite nth_repeat. auto.
    - rewrite (H3 eq_refl), (rd_nth _ sh _ 0) by lia. cbn [bind]. destruct (Nat.ltb_spec i (nth n sh 0)) as [L|L].
      + rewrite A; auto.
      + rewrite label_pairs_S. apply Nat.ltb_ge in L. rewrite L. auto. }
  apply G. lia.
Qed.
Lemma label_holds : forall sh x i, in_shape sh x -> holds (label_iv sh i) x = if in_dec Nat.eq_dec i x then true else false.
Proof.
  intros sh x i HX. pose proof (in_shape_length _ _ HX) as HL. unfold holds, label_iv. cbn [iv_op iv_pairs]. destruct (in_dec Nat.eq_dec i x) as [I|I].
  - apply existsb_exists. apply (In_nth _ _ 0) in I as (j & Hj & E). exists (j, i). cbn [fst snd]. split; [|apply Nat.eqb_eq; auto]. unfold label_pairs. apply in_map_iff. exists j. split; auto. apply filter_In. rewrite in_seq. split; [lia|].
    apply Nat.ltb_lt. rewrite <- E. clear - HX Hj. revert j Hj. induction HX as [|a b x sh L HX IH]; intros j Hj; cbn in *; [lia|]. destruct j; auto. apply IH. lia.
  - apply not_true_is_false. intros H. apply existsb_exists in H as ([j k] & Hp & E). apply I. unfold label_pairs in Hp. apply in_map_iff in Hp as (j' & E' & Hj). injection E' as -> <-. apply filter_In in Hj as [Hj _]. apply in_seq in Hj.
    cbn [fst snd] in E. apply Nat.eqb_eq in E. rewrite <- E. apply nth_In. lia.
Qed.
Definition nl_lc (sh : list nat) (m maxUsed : nat) : lc := mkLC (map (label_iv sh) (seq 0 m)) (map (fun _ => 1%Qc) (seq 0 m)) (Qc_of maxUsed) LessEqual.
Lemma nlf_build_ok : forall s sh maxUsed valid invalid, vs_ok s sh ->
  nlf_build s maxUsed valid invalid = Ret (mkNlf s maxUsed valid invalid (map (label_iv sh) (seq 0 (vs_max s))) (nl_lc sh (vs_max s) maxUsed)).
Proof.
  intros s sh maxUsed valid invalid HS. unfold nlf_build. rewrite (mapM_Ret _ _ _ (label_iv sh)). 2: { intros i Hi. apply in_seq in Hi. apply indicator_ok; auto. lia. } cbn [bind].
  assert (G : forall n a c, a + n <= vs_max s -> foldM (fun c i => v <- rd (map (label_iv sh) (seq 0 (vs_max s))) i;; Ret (lc_add c v 1%Qc)) (seq a n) c =
     Ret (mkLC (lc_ivs c ++ map (label_iv sh) (seq a n)) (lc_coeffs c ++ map (fun _ => 1%Qc) (seq a n)) (lc_bound c) (lc_op c))).
  { induction n as [|n IH]; intros a c Hn; cbn [seq foldM map]. { rewrite !app_nil_r. destruct c; auto. }
    rewrite (rd_Ret _ _ _ (label_iv sh a)). 2: { apply map_nth_error. rewrite (nth_error_nth' _ 0) by (rewrite seq_length; lia). rewrite seq_nth by lia. auto. } cbn [bind]. rewrite IH by lia. unfold lc_add. cbn [lc_ivs lc_coeffs lc_bound lc_op]. rewrite <- !app_assoc. auto. }
  rewrite G by lia. cbn [bind]. auto.
Qed.
Lemma nl_lhs : forall sh m maxUsed val, lhs (nl_lc sh m maxUsed) val = Qc_sum (map (fun i => val (label_iv sh i)) (seq 0 m)).
Proof. intros. unfold lhs, nl_lc. cbn [lc_ivs lc_coeffs]. rewrite combine_maps, map_map. cbn [fst snd]. f_equal. apply map_ext. intros i. qc. Qed.
Lemma nl_indicated : forall sh m maxUsed x, in_shape sh x -> Forall (fun l => l < m) x -> lhs (nl_lc sh m maxUsed) (indicated x) = Qc_of (labels_used x).
Proof.
  intros sh m maxUsed x HX HF. rewrite nl_lhs, <- (Qc_sum_ind m x HF). f_equal. apply map_ext. intros i. unfold indicated. rewrite label_holds by auto. destruct (in_dec Nat.eq_dec i x); auto.
Qed.
Lemma Qc_of_le : forall a b, (Qc_of a <= Qc_of b)%Qc <-> a <= b.
Proof. intros a b. unfold Qcle, Qc_of. cbn [this Q2Qc]. rewrite !Qred_correct. rewrite <- Zle_Qle. lia. Qed.
Lemma label_iv_inj : forall s sh i j, vs_ok s sh -> sh <> [] -> i < vs_max s -> label_iv sh i = label_iv sh j -> i = j.
Proof.
  intros s sh i j (_ & _ & _ & _ & H) NE Hi E. destruct H as [H|H]; [contradiction|]. apply (In_nth _ _ 0) in H as (k & Hk & Ek). unfold label_iv in E. injection E as E.
  assert (I : In (k, i) (label_pairs sh j (length sh))). { rewrite <- E. unfold label_pairs. apply in_map_iff. exists k. split; auto. apply filter_In. rewrite in_seq. split; [lia|]. apply Nat.ltb_lt. lia. }
  unfold label_pairs in I. apply in_map_iff in I as (k' & E' & _). congruence.
Qed.
Lemma sum_reads : forall y0 more n s w, s + n <= length y0 -> foldM (fun w i => v <- rd (y0 ++ more) i ;; Ret (w + v)%Qc) (seq s n) w = Ret (w + Qc_sum (map (fun i => nth i y0 0%Qc) (seq s n)))%Qc.
Proof.
  intros y0 more. induction n as [|n IH]; intros s w H; cbn [seq foldM map]; unfold Qc_sum in *; cbn [fold_right]. { f_equal. qc. }
  rewrite (rd_nth _ _ _ 0%Qc) by (rewrite app_length; lia). rewrite app_nth1 by lia. cbn [bind]. rewrite IH by lia. f_equal. qc.
Qed.
Lemma nlf_call_ok : forall s sh maxUsed valid invalid l c x, vs_ok s sh -> in_shape sh x ->
  nlf_call (mkNlf s maxUsed valid invalid l c) x = Ret (if labels_used x <=? maxUsed then valid else invalid).
Proof.
  intros s sh maxUsed valid invalid li c x HS HX. unfold nlf_call. cbn [nl_sh nl_maxUsed nl_valid nl_invalid]. assert (Len : vs_num s = length x) by (rewrite (in_shape_length _ _ HX); apply HS). rewrite Len.
  destruct (nlf_loop_ok maxUsed (vs_max s) x [] (repeat false (vs_max s))) as (b & E & Hb). { eapply vs_labels; eauto. } { apply flags_start. } { cbn. lia. }
  cbn [app length] in E. change (labels_used []) with 0 in E. rewrite E. cbn [bind app] in *. f_equal. destruct (Nat.leb_spec (labels_used x) maxUsed) as [L|L]; destruct b; auto; [|]; exfalso; [|]. { assert (false = true) by (apply Hb; auto). discriminate. } assert (labels_used x <= maxUsed) by (apply Hb; auto). lia.
Qed.
Lemma labels_ok : forall s sh maxUsed valid invalid, vs_ok s sh -> sh <> [] ->
  exists f, nlf_build s maxUsed valid invalid = Ret f /\ constraint_function nlf_cf f sh valid invalid 0%Qc /\
    (forall x, in_shape sh x -> nlf_call f x = Ret (if labels_used x <=? maxUsed then valid else invalid)).
Proof.
  intros s sh maxUsed valid invalid HS NE. rewrite (nlf_build_ok s sh) by auto. eexists. split; [reflexivity|]. set (c := nl_lc sh (vs_max s) maxUsed). set (f := mkNlf _ _ _ _ _ _).
  assert (Len : forall x, in_shape sh x -> vs_num s = length x) by (intros x HX; rewrite (in_shape_length _ _ HX); apply HS).
  assert (CALL : forall x, in_shape sh x -> nlf_call f x = Ret (if labels_used x <=? maxUsed then valid else invalid)) by (intros x HX; apply (nlf_call_ok s sh); auto).
  split; [|exact CALL].
  unfold constraint_function. cbn [nlf_cf nlf_ft cf_ft cf_constraints cf_indicators cf_challenge cf_relaxed ft_call]. change (nl_constraint f) with c. change (nl_list f) with (lc_ivs c).
  split. { eapply vs_has_shape; eauto. }
  split. { intros x HX. rewrite CALL by auto. eexists. split; [reflexivity|]. rewrite (le_within c (indicated x) eq_refl). unfold c. rewrite nl_indicated by (auto; eapply vs_labels; eauto). change (lc_bound _) with (Qc_of maxUsed).
    rewrite Qc_of_le. destruct (Nat.leb_spec (labels_used x) maxUsed); split; intros; auto; exfalso; lia. }
  split. { intros x tol HX HT. unfold nlf_challenge. cbn [f nl_sh nl_maxUsed]. rewrite (Len x HX). pose proof (nlf_count_ok (vs_max s) x [] (repeat false (vs_max s)) ltac:(eapply vs_labels; eauto) (flags_start _)) as E.
    cbn [app length] in E. change (labels_used []) with 0 in E. rewrite E. cbn [bind]. eexists. split; [reflexivity|]. pose proof (le_report c (indicated x) tol HT eq_refl) as R. unfold c in R at 2 4. rewrite nl_indicated in R by (auto; eapply vs_labels; eauto). exact R. }
  split. { intros val more tol HT. unfold nlf_relaxed. cbn [f nl_sh nl_maxUsed]. unfold c at 1. cbn [nl_lc lc_ivs]. rewrite map_map. rewrite sum_reads by (rewrite map_length, seq_length; lia). cbn [bind]. eexists. split; [reflexivity|].
    pose proof (le_report c val tol HT eq_refl) as R. unfold c in R at 2 4. rewrite nl_lhs in R. change (lc_bound c) with (Qc_of maxUsed) in R.
    rewrite (map_ext_in (fun i => nth i (map (fun x => val (label_iv sh x)) (seq 0 (vs_max s))) 0%Qc) (fun i => val (label_iv sh i))). 2: { intros i Hi. apply in_seq in Hi. apply nth_map_seq0. lia. }
    set (S := Qc_sum _) in *. replace (- Qc_of maxUsed + S)%Qc with (S - Qc_of maxUsed)%Qc by qc. exact R. }
  split. { cbn [c nl_lc lc_ivs]. assert (G : forall l, NoDup l -> Forall (fun i => i < vs_max s) l -> NoDup (map (label_iv sh) l)).
    { induction 1 as [|a l N ND IH]; intros HF; cbn; constructor; inversion HF; subst; auto. intros I. apply in_map_iff in I as (b & E & Hb). symmetry in E. apply (label_iv_inj s sh) in E; auto. subst. auto. }
    apply G; [apply seq_NoDup|]. apply Forall_forall. intros i Hi. apply in_seq in Hi. lia. }
  intros c' v [<-|[]] Hv. auto.
Qed.
(** ** Label costs *)
Lemma find_label_ok : forall l post pre, find_label (pre ++ post) l (length post) (length pre) = Ret (if in_dec Nat.eq_dec l post then true else false).
Proof.
  intros l. induction post as [|a post IH]; intros pre; cbn [length find_label]; auto. rewrite rd_here. cbn [bind]. specialize (IH (pre ++ [a])). rewrite <- app_assoc, app_length in IH. cbn [app length] in IH. rewrite Nat.add_1_r in IH. rewrite IH.
  destruct (Nat.eqb_spec a l) as [->|NE].
  - destruct (in_dec Nat.eq_dec l (l :: post)) as [I|I]; auto. exfalso. apply I. cbn. auto.
  - destruct (in_dec Nat.eq_dec l post) as [I|I], (in_dec Nat.eq_dec l (a :: post)) as [J|J]; auto; exfalso; [apply J; cbn; auto|]. destruct J; auto.
Qed.
Lemma lcost_call_ok : forall s sh costs x, vs_ok s sh -> in_shape sh x ->
  match costs with
  | Costs k => Forall (fun n => n <= length k) sh -> lcost_call (mkLcost s costs) x = Ret (Qc_sum (map (fun l => nth l k 0%Qc) (nodup Nat.eq_dec x)))
  | SingleCost l k => lcost_call (mkLcost s costs) x = Ret (if in_dec Nat.eq_dec l x then k else 0%Qc)
  end.
Proof.
  intros s sh costs x HS HX. assert (Len : vs_num s = length x) by (rewrite (in_shape_length _ _ HX); apply HS). destruct costs as [k|l k]; unfold lcost_call; cbn [lk_costs lk_sh]; rewrite Len.
  - intros HK0. assert (HK : sh = [] \/ vs_max s <= length k). { destruct HS as (_ & _ & _ & _ & [H|H]); auto. right. rewrite Forall_forall in HK0. auto. } destruct HK as [->|HK]. { inversion HX; subst. cbn. auto. }
    pose proof (lcost_loop_ok k (vs_max s) x [] (repeat false (vs_max s)) 0%Qc ltac:(eapply vs_labels; eauto) (flags_start _) HK) as E. cbn [app length] in E. change (labels_used []) with 0 in E. rewrite E.
    f_equal. unfold Qc_sum. cbn [nodup map fold_right]. qc.
  - pose proof (find_label_ok l x []) as E. cbn [app length] in E. rewrite E. cbn [bind]. f_equal. destruct (in_dec Nat.eq_dec l x); auto.
Qed.
(** ** The sum constraint *)
Lemma Qc_abs_ok : forall a, Qc_abs a = absolute a.
Proof. intros a. unfold Qc_abs, absolute, Qc_lt. destruct (Qclt_le_dec a 0); auto. Qed.
Lemma offsets_loop : forall sh n (get : nat -> outcome nat), n <= length sh -> (forall i, i < n -> get i = Ret (nth i sh 0)) -> forall k, n <= k ->
  foldM (fun (st : list nat * nat) i => o <- wr (fst st) i (snd st) ;; m <- get i ;; Ret (o, snd st + m)) (seq 0 n) (repeat 0 k, 0)
  = Ret (map (fun i => list_sum (firstn i sh)) (seq 0 n) ++ repeat 0 (k - n), list_sum (firstn n sh)).
Proof.
  intros sh. induction n as [|n IH]; intros get Hn HG k Hk. { cbn. rewrite Nat.sub_0_r. auto. }
  rewrite seq_S, foldM_app, IH by (auto; lia). cbn [bind foldM plus fst snd]. rewrite wr_Ret by (rewrite app_length, map_length, seq_length, repeat_length; lia). cbn [bind]. rewrite HG by lia. cbn [bind]. f_equal. f_equal.
  - rewrite map_app, <- app_assoc. cbn [map app]. replace (k - n) with (S (k - S n)) by lia. cbn [repeat]. assert (L : length (map (fun i => list_sum (firstn i sh)) (seq 0 n)) = n) by (rewrite map_length, seq_length; auto).
    assert (U : forall (a : list nat) m v t, m = length a -> upd (a ++ 0 :: t) m v = a ++ v :: t) by (induction a; intros m v t ->; cbn; auto; f_equal; auto). apply U. auto.
  - clear - Hn. revert n Hn. induction sh as [|a sh IH]; intros n Hn; cbn [length] in Hn; [lia|]. destruct n; cbn [firstn list_sum nth fold_right]; [unfold list_sum; cbn; lia|]. change (list_sum (a :: firstn n sh) + nth n sh 0 = list_sum (a :: firstn (S n) sh)).
    change (a + list_sum (firstn n sh) + nth n sh 0 = a + list_sum (firstn (S n) sh)). rewrite <- IH by lia. lia.
Qed.
Lemma sumf_call_ok : forall s sh coeffs share offsets lambda bound x, vs_ok s sh -> in_shape sh x -> (share = false -> offsets = map (fun i => list_sum (firstn i sh)) (seq 0 (length sh))) ->
  tables_fit share sh coeffs ->
  sumf_call (mkSumf s coeffs share offsets lambda bound) x = Ret (absolute (Qc_sum (selected share sh coeffs x) - bound) * lambda)%Qc.
Proof.
  intros s sh coeffs share offsets lambda bound x HS HX HO HC. unfold sumf_call. cbn [sc_sh sc_share sc_offsets sc_coeffs sc_bound sc_lambda]. pose proof (in_shape_length _ _ HX) as HL. destruct HS as (H1 & _). rewrite H1, <- HL.
  assert (LT : forall i, i < length x -> nth i x 0 < nth i sh 0). { clear - HX. induction HX as [|a b x sh L HX IH]; intros [|i] Hi; cbn in *; try lia. apply IH. lia. }
  set (pick := fun i => nth (table_start share sh i + nth i x 0) coeffs 0%Qc).
  assert (G : forall n a w, a + n <= length x -> foldM (fun v i => l <- rd x i ;; o <- (if share then Ret 0 else rd offsets i) ;; k <- rd coeffs (o + l) ;; Ret (v + k)%Qc) (seq a n) w =
     Ret (w + Qc_sum (map pick (seq a n)))%Qc).
  { induction n as [|n IH]; intros a w Hn; cbn [seq foldM map]; unfold Qc_sum in *; cbn [fold_right]. { f_equal. qc. }
    rewrite (rd_nth _ x _ 0) by lia. cbn [bind]. assert (E : (if share then Ret 0 else rd offsets a) = Ret (table_start share sh a)).
    { unfold table_start. destruct share; auto. rewrite HO by auto. apply rd_Ret. erewrite map_nth_error; [reflexivity|]. rewrite (nth_error_nth' _ 0) by (rewrite seq_length; lia). rewrite seq_nth by lia. auto. }
    rewrite E. cbn [bind]. specialize (LT a ltac:(lia)). specialize (HC a ltac:(lia)). rewrite (rd_nth _ coeffs _ 0%Qc) by lia. cbn [bind]. fold (pick a). rewrite IH by lia. f_equal. qc. }
  rewrite G by lia. cbn [bind]. rewrite Qc_abs_ok. unfold selected. rewrite <- HL. fold pick. f_equal. f_equal. f_equal. set (S := Qc_sum _). qc.
Qed.
