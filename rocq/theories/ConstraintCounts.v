(** Lemmas for C50 and C51: numbers of labels, counts of used labels, reading of sequences. *)
From Coq Require Import QArith Qcanon Sorted Permutation Lqa.
From Verif Require Import Base ShapeSpec ShapeProofs IndexingModel UtilModel UtilProps FunctionsModel FunctionsSpec FunctionsProofs ConstraintModel ConstraintSpec ConstraintProofs.
Open Scope nat_scope.

(** ** Numbers of labels *)
Definition vs_ok (s : vshape) (sh : list nat) : Prop :=
  vs_num s = length sh /\ (vs_same s = true -> sh = repeat (vs_max s) (vs_num s)) /\ (vs_same s = false -> vs_shape s = sh) /\
  Forall (fun n => n <= vs_max s) sh /\ (sh = [] \/ In (vs_max s) sh).
Lemma fold_max : forall t a, (forall n, In n (a :: t) -> n <= fold_left Nat.max t a) /\ In (fold_left Nat.max t a) (a :: t).
Proof.
  induction t as [|b t IH]; intros a; cbn [fold_left]. { split; cbn; auto. intros n [->|[]]. auto. }
  destruct (IH (Nat.max a b)) as [H1 H2]. split.
  - intros n [->|[->|H]]. { specialize (H1 _ (or_introl eq_refl)). lia. } { specialize (H1 _ (or_introl eq_refl)). lia. } apply H1. right. auto.
  - destruct H2 as [H2|H2]; [|right; right; auto]. rewrite <- H2. destruct (Nat.max_spec a b) as [[_ ->]|[_ ->]]; cbn; auto.
Qed.
Lemma all_same : forall t a, forallb (fun p => fst p =? snd p) (combine t (a :: t)) = true <-> t = repeat a (length t).
Proof.
  induction t as [|b t IH]; intros a; [cbn; tauto|]. change (forallb (fun p : nat * nat => fst p =? snd p) (combine (b :: t) (a :: b :: t))) with ((b =? a) && forallb (fun p => fst p =? snd p) (combine t (b :: t))).
  cbn [length repeat]. split; intros H.
  - apply andb_prop in H as [H1 H2]. apply Nat.eqb_eq in H1. subst b. f_equal. apply IH. auto.
  - injection H as -> H. rewrite Nat.eqb_refl. cbn. apply IH. auto.
Qed.
Lemma vs_list_ok : forall sh, vs_ok (vs_list sh) sh.
Proof.
  intros [|a t]; unfold vs_ok, vs_list; cbn [vs_num vs_same vs_max vs_shape]. { repeat split; auto; discriminate. }
  destruct (fold_max t a) as [H1 H2]. repeat split; auto.
  - intros H. apply all_same in H. assert (E : forall k b, fold_left Nat.max (repeat b k) b = b) by (induction k as [|k IH]; intros b; cbn; auto; rewrite Nat.max_id; auto).
    rewrite H, E. cbn [length repeat]. rewrite repeat_length. auto.
  - apply Forall_forall. auto.
Qed.
Lemma pow_ret : forall b e, (b < 2 ^ 64)%N -> (e < 2 ^ 64)%N -> unsignedIntegerPow b e = Ret (N.modulo (b ^ e) (2 ^ 64)).
Proof. apply C29_unsignedIntegerPow. Qed.
Definition small (n : nat) : Prop := (N.of_nat n < 2 ^ 64)%N.
Lemma vs_uniform_ok : forall n k, small n -> small k -> exists s, vs_uniform n k = Ret s /\ vs_ok s (repeat k n) /\ vs_same s = true /\ vs_max s = k /\
  vs_size s = Z.of_N (N.modulo (N.of_nat k ^ N.of_nat n) (2 ^ 64)).
Proof.
  intros n k Hn Hk. unfold vs_uniform. rewrite pow_ret by auto. cbn [bind]. eexists. split; [reflexivity|]. cbn [vs_same vs_max vs_size]. split; auto.
  unfold vs_ok. cbn [vs_num vs_same vs_max vs_shape]. rewrite repeat_length. repeat split; auto; try discriminate.
  - apply Forall_forall. intros m Hm. apply repeat_spec in Hm. lia.
  - destruct n; [left; auto|right; cbn; auto].
Qed.
Lemma vs_has_shape : forall T F (ft : ftype T F) f s sh, vs_ok s sh -> ft_dimension ft f = vs_num s -> (forall i, ft_shape ft f i = vs_get s i) -> has_shape ft f sh.
Proof.
  intros T F ft f s sh (H1 & H2 & H3 & _) HD HS. split. { congruence. } intros i Hi. rewrite HS. unfold vs_get. destruct (vs_same s) eqn:E.
  - rewrite (H2 eq_refl) at 1. f_equal. symmetry. rewrite (nth_indep _ 0 (vs_max s)) by (rewrite repeat_length; lia). apply nth_repeat.
  - rewrite H3 by auto. apply rd_nth. auto.
Qed.
Lemma vs_labels : forall s sh x, vs_ok s sh -> in_shape sh x -> Forall (fun l => l < vs_max s) x.
Proof. intros s sh x (_ & _ & _ & H & _) HX. revert H. induction HX as [|a b x sh Hab HX IH]; intros H; constructor; inversion H; subst; auto. lia. Qed.

(** ** Counts *)
Lemma used_snoc : forall pre l, labels_used (pre ++ [l]) = if in_dec Nat.eq_dec l pre then labels_used pre else S (labels_used pre).
Proof.
  intros pre l. unfold labels_used. destruct (in_dec Nat.eq_dec l pre) as [H|H].
  - apply Permutation_length, NoDup_Permutation; try apply NoDup_nodup. intros y. rewrite !nodup_In, in_app_iff. cbn. split; [|auto]. intros [H1|[<-|[]]]; auto.
  - change (S (length (nodup Nat.eq_dec pre))) with (length (l :: nodup Nat.eq_dec pre)). apply Permutation_length, NoDup_Permutation; [apply NoDup_nodup|constructor; [rewrite nodup_In; auto|apply NoDup_nodup]|].
    intros y. cbn. rewrite !nodup_In, in_app_iff. cbn. tauto.
Qed.
Lemma used_mono : forall post pre, labels_used pre <= labels_used (pre ++ post).
Proof.
  intros post pre. unfold labels_used. apply NoDup_incl_length; [apply NoDup_nodup|]. intros y. rewrite !nodup_In, in_app_iff. auto.
Qed.
Lemma used_bound : forall x m, Forall (fun l => l < m) x -> labels_used x <= m.
Proof.
  intros x m H. unfold labels_used. rewrite <- (seq_length m 0). apply NoDup_incl_length; [apply NoDup_nodup|]. intros y. rewrite nodup_In, in_seq. rewrite Forall_forall in H. intros Hy. specialize (H _ Hy). lia.
Qed.
Definition flags (m : nat) (pre : list nat) (used : list bool) : Prop :=
  length used = m /\ forall l, l < m -> nth_error used l = Some (if in_dec Nat.eq_dec l pre then true else false).
Lemma flags_start : forall m, flags m [] (repeat false m).
Proof. intros m. split. { apply repeat_length. } intros l Hl. rewrite nth_error_repeat by auto. auto. Qed.
Lemma flags_next : forall m pre used l, flags m pre used -> l < m -> ~ In l pre -> flags m (pre ++ [l]) (upd used l true).
Proof.
  intros m pre used l [H1 H2] Hl N. split. { rewrite length_upd; auto. } intros k Hk. rewrite nth_error_upd by lia. destruct (Nat.eq_dec l k) as [->|NE].
  - destruct (in_dec Nat.eq_dec k (pre ++ [k])) as [I|I]; auto. exfalso. apply I, in_app_iff. cbn. auto.
  - rewrite H2 by auto. destruct (in_dec Nat.eq_dec k pre) as [I|I], (in_dec Nat.eq_dec k (pre ++ [l])) as [J|J]; auto; exfalso; rewrite in_app_iff in J; cbn in J; tauto.
Qed.
Lemma flags_same : forall m pre used l, flags m pre used -> In l pre -> flags m (pre ++ [l]) used.
Proof.
  intros m pre used l [H1 H2] Hl. split; auto. intros k Hk. rewrite H2 by auto. destruct (in_dec Nat.eq_dec k pre) as [I|I], (in_dec Nat.eq_dec k (pre ++ [l])) as [J|J]; auto; exfalso; rewrite in_app_iff in J; cbn in J; try tauto.
  destruct J as [J|[<-|[]]]; auto.
Qed.
Lemma flags_rd : forall m pre used l, flags m pre used -> l < m -> rd used l = Ret (if in_dec Nat.eq_dec l pre then true else false).
Proof. intros m pre used l [_ H] Hl. apply rd_Ret. auto. Qed.
Lemma rd_here : forall A (pre : list A) l post, rd (pre ++ l :: post) (length pre) = Ret l.
Proof. intros. apply rd_Ret. rewrite nth_error_app2, Nat.sub_diag; auto. Qed.

Lemma nlf_loop_ok : forall maxUsed m post pre used, Forall (fun l => l < m) (pre ++ post) -> flags m pre used -> labels_used pre <= maxUsed ->
  exists b, nlf_loop (pre ++ post) maxUsed (length post) (length pre) used (labels_used pre) = Ret b /\ (b = true <-> labels_used (pre ++ post) <= maxUsed).
Proof.
  intros maxUsed m. induction post as [|l post IH]; intros pre used HF HU HL. { cbn. exists true. rewrite app_nil_r. tauto. }
  cbn [length nlf_loop]. rewrite rd_here. cbn [bind]. assert (Hl : l < m). { rewrite Forall_forall in HF. apply HF, in_app_iff. cbn. auto. }
  rewrite (flags_rd _ _ _ _ HU Hl). cbn [bind]. pose proof (used_snoc pre l) as US. specialize (IH (pre ++ [l])). rewrite <- app_assoc, app_length in IH. cbn [app length] in IH. rewrite Nat.add_1_r in IH.
  destruct (in_dec Nat.eq_dec l pre) as [I|I]; cbn [negb].
  - rewrite US in IH. apply IH; auto. apply flags_same; auto.
  - rewrite wr_Ret by (destruct HU as [-> _]; auto). cbn [bind]. destruct (Nat.ltb_spec maxUsed (S (labels_used pre))) as [G|G].
    + exists false. split; auto. split; [discriminate|]. intros H. pose proof (used_mono post (pre ++ [l])) as M. rewrite <- app_assoc in M. cbn [app] in M. lia.
    + rewrite US in IH. apply IH; auto. apply flags_next; auto.
Qed.
Lemma nlf_count_ok : forall m post pre used, Forall (fun l => l < m) (pre ++ post) -> flags m pre used ->
  nlf_count (pre ++ post) m (length post) (length pre) used (labels_used pre) = Ret (labels_used (pre ++ post)).
Proof.
  intros m. induction post as [|l post IH]; intros pre used HF HU. { cbn. rewrite app_nil_r. auto. }
  cbn [length nlf_count]. rewrite rd_here. cbn [bind]. assert (Hl : l < m). { rewrite Forall_forall in HF. apply HF, in_app_iff. cbn. auto. }
  rewrite (flags_rd _ _ _ _ HU Hl). cbn [bind]. pose proof (used_snoc pre l) as US. specialize (IH (pre ++ [l])). rewrite <- app_assoc, app_length in IH. cbn [app length] in IH. rewrite Nat.add_1_r in IH.
  destruct (in_dec Nat.eq_dec l pre) as [I|I]; cbn [negb].
  - rewrite US in IH. apply IH; auto. apply flags_same; auto.
  - rewrite wr_Ret by (destruct HU as [-> _]; auto). cbn [bind]. destruct (Nat.eqb_spec (S (labels_used pre)) m) as [G|G].
    + pose proof (used_mono post (pre ++ [l])) as M. rewrite <- app_assoc in M. cbn [app] in M. pose proof (used_bound _ _ HF). f_equal. lia.
    + rewrite US in IH. apply IH; auto. apply flags_next; auto.
Qed.

(** ** Sums *)
Lemma Qc_sum_app : forall a b, Qc_sum (a ++ b) = (Qc_sum a + Qc_sum b)%Qc.
Proof. induction a as [|x a IH]; intros b; unfold Qc_sum; cbn [app fold_right]. { qc. } unfold Qc_sum in IH. rewrite IH. qc. Qed.
Lemma Qc_sum_perm : forall a b, Permutation a b -> Qc_sum a = Qc_sum b.
Proof. induction 1; cbn [Qc_sum fold_right] in *; auto; try (unfold Qc_sum in *; qc). Qed.
Lemma Qc_of_S : forall n, Qc_of (S n) = (Qc_of n + 1)%Qc.
Proof.
  intros n. unfold Qc_of. apply Qc_is_canon. unfold Qcplus. cbn [this Q2Qc]. rewrite !Qred_correct. rewrite Nat2Z.inj_succ. unfold Z.succ. rewrite inject_Z_plus. reflexivity.
Qed.
Lemma Qc_sum_ind : forall m x, Forall (fun l => l < m) x -> Qc_sum (map (fun i => if in_dec Nat.eq_dec i x then 1 else 0)%Qc (seq 0 m)) = Qc_of (labels_used x).
Proof.
  intros m x HF. assert (E : labels_used x = length (filter (fun i => if in_dec Nat.eq_dec i x then true else false) (seq 0 m))).
  { unfold labels_used. apply Permutation_length, NoDup_Permutation. { apply NoDup_nodup. } { apply NoDup_filter, seq_NoDup. }
    intros y. rewrite nodup_In, filter_In, in_seq. rewrite Forall_forall in HF. destruct (in_dec Nat.eq_dec y x) as [I|I]; split; try tauto; try (intros [_ H]; discriminate). intros _. specialize (HF _ I). split; auto; lia. }
  rewrite E. clear. induction (seq 0 m) as [|i l IH]; cbn [map Qc_sum fold_right filter length]; auto. change (fold_right Qcplus 0%Qc) with Qc_sum. rewrite IH. destruct (in_dec Nat.eq_dec i x); cbn [length]; [rewrite Qc_of_S|]; qc.
Qed.
Lemma lcost_loop_ok : forall costs m post pre used r, Forall (fun l => l < m) (pre ++ post) -> flags m pre used -> m <= length costs ->
  lcost_loop (pre ++ post) costs m (length post) (length pre) used (labels_used pre) r =
  Ret (r + (Qc_sum (map (fun l => nth l costs 0%Qc) (nodup Nat.eq_dec (pre ++ post))) - Qc_sum (map (fun l => nth l costs 0%Qc) (nodup Nat.eq_dec pre))))%Qc.
Proof.
  intros costs m. induction post as [|l post IH]; intros pre used r HF HU HC. { cbn. rewrite app_nil_r. f_equal. qc. }
  cbn [length lcost_loop]. rewrite rd_here. cbn [bind]. assert (Hl : l < m). { rewrite Forall_forall in HF. apply HF, in_app_iff. cbn. auto. }
  rewrite (flags_rd _ _ _ _ HU Hl). cbn [bind]. pose proof (used_snoc pre l) as US. specialize (IH (pre ++ [l])). rewrite <- app_assoc, app_length in IH. cbn [app length] in IH. rewrite Nat.add_1_r in IH.
  set (S0 := fun x => Qc_sum (map (fun l => nth l costs 0%Qc) (nodup Nat.eq_dec x))) in *.
  assert (Full : forall p, labels_used p = m -> incl p (pre ++ l :: post) -> S0 p = S0 (pre ++ l :: post)).
  { intros p Hp Hi. apply Qc_sum_perm, Permutation_map. apply NoDup_Permutation_bis; [apply NoDup_nodup| |].
    - unfold labels_used in Hp. rewrite Hp. apply used_bound. auto.
    - intros y. rewrite !nodup_In. apply Hi. }
  destruct (in_dec Nat.eq_dec l pre) as [I|I]; cbn [negb bind].
  - assert (E : S0 (pre ++ [l]) = S0 pre). { apply Qc_sum_perm, Permutation_map, NoDup_Permutation; try apply NoDup_nodup. intros y. rewrite !nodup_In, in_app_iff. cbn. split; auto. intros [H|[<-|[]]]; auto. }
    destruct (Nat.eqb_spec (labels_used pre) m) as [G|G].
    + fold (S0 (pre ++ l :: post)). fold (S0 pre). rewrite (Full pre) by (auto; intros y Hy; apply in_app_iff; auto). f_equal. qc.
    + rewrite US in IH. rewrite (IH used r) by (auto; apply flags_same; auto). fold (S0 (pre ++ [l])) (S0 pre) (S0 (pre ++ l :: post)). rewrite E. auto.
  - rewrite wr_Ret by (destruct HU as [-> _]; auto). cbn [bind]. rewrite (rd_nth _ _ _ 0%Qc) by lia. cbn [bind].
    assert (E : S0 (pre ++ [l]) = (nth l costs 0 + S0 pre)%Qc).
    { change (nth l costs 0 + S0 pre)%Qc with (Qc_sum (map (fun l => nth l costs 0%Qc) (l :: nodup Nat.eq_dec pre))). apply Qc_sum_perm, Permutation_map, NoDup_Permutation; [apply NoDup_nodup|constructor; [rewrite nodup_In; auto|apply NoDup_nodup]|].
      intros y. cbn. rewrite !nodup_In, in_app_iff. cbn. tauto. }
    destruct (Nat.eqb_spec (S (labels_used pre)) m) as [G|G].
    + pose proof (Full (pre ++ [l]) ltac:(lia)) as F. fold (S0 (pre ++ l :: post)) (S0 pre). rewrite <- F. { rewrite E. f_equal. qc. } intros y Hy. apply in_app_iff in Hy. apply in_app_iff. cbn in *. tauto.
    + rewrite US in IH. rewrite IH by (auto; apply flags_next; auto). fold (S0 (pre ++ [l])) (S0 pre) (S0 (pre ++ l :: post)). rewrite E. f_equal. qc.
Qed.
