(** Lemmas for C50 and C51: writing and reading of the constraint functions. *)
From Coq Require Import QArith Qcanon Sorted Permutation Lqa.
From Verif Require Import Base ShapeSpec ShapeProofs IndexingModel UtilModel FunctionsModel FunctionsSpec FunctionsProofs FunctionsProps ConstraintModel ConstraintSpec ConstraintProofs ConstraintCounts ConstraintFuncs ConstraintLabels.
Open Scope nat_scope.

(** ** Reading of sequences *)
Lemma reads_map : forall A B C D (f : C -> list A -> outcome (B * list A)) (key : D -> C) (enc : D -> list A) (g : D -> B) l t,
  (forall d t, In d l -> f (key d) (enc d ++ t) = Ret (g d, t)) -> reads f (map key l) (concat (map enc l) ++ t) = Ret (map g l, t).
Proof.
  intros A B C D f key enc g. induction l as [|d l IH]; intros t H; cbn [map concat reads app]; auto. rewrite <- app_assoc, H by (cbn; auto). cbn [bind]. rewrite IH by (intros; apply H; cbn; auto). auto.
Qed.
Lemma reads_count : forall A B (f : list A -> outcome (B * list A)) (enc : B -> list A) l t s,
  (forall d t, In d l -> f (enc d ++ t) = Ret (d, t)) -> reads (fun _ => f) (seq s (length l)) (concat (map enc l) ++ t) = Ret (l, t).
Proof.
  intros A B f enc. induction l as [|d l IH]; intros t s H; cbn [map concat reads app seq length]; auto. rewrite <- app_assoc, H by (cbn; auto). cbn [bind]. rewrite IH by (intros; apply H; cbn; auto). auto.
Qed.
Lemma nexts_ok : forall A (l t : list A), nexts (length l) (l ++ t) = Ret (l, t).
Proof.
  intros A l t. pose proof (reads_count A A next (fun a => [a]) l t 0) as H. assert (E : concat (map (fun a => [a]) l) = l) by (clear; induction l; cbn; congruence). rewrite E in H. apply H. auto.
Qed.
(** ** Indicator variables *)
Lemma pair_le_total : forall p q, pair_le p q = false -> pair_le q p = true.
Proof.
  intros [a b] [c d]. unfold pair_le. cbn [fst snd]. destruct (Nat.ltb_spec a c), (Nat.ltb_spec c a), (Nat.eqb_spec a c), (Nat.eqb_spec c a), (Nat.leb_spec b d), (Nat.leb_spec d b); cbn; intros; auto; try discriminate; lia.
Qed.
Lemma pair_le_trans : forall p q r, pair_le p q = true -> pair_le q r = true -> pair_le p r = true.
Proof.
  intros [a b] [c d] [e f]. unfold pair_le. cbn [fst snd]. rewrite !orb_true_iff, !andb_true_iff, !Nat.ltb_lt, !Nat.eqb_eq, !Nat.leb_le. lia.
Qed.
Lemma pair_ins_in : forall p l q, In q (pair_ins p l) <-> q = p \/ In q l.
Proof. intros p l q. induction l as [|r l IH]; cbn. { intuition. } destruct (pair_le p r); cbn; [intuition|]. rewrite IH. intuition. Qed.
Lemma pair_sort_sorted : forall l, StronglySorted (fun p q => pair_le p q = true) (pair_sort l).
Proof.
  assert (I : forall p l, StronglySorted (fun p q => pair_le p q = true) l -> StronglySorted (fun p q => pair_le p q = true) (pair_ins p l)).
  { intros p. induction 1 as [|q l S IH F]; cbn. { repeat constructor. } destruct (pair_le p q) eqn:E.
    - constructor; [constructor; auto|]. constructor; auto. rewrite Forall_forall in *. intros r Hr. eapply pair_le_trans; eauto.
    - constructor; auto. apply Forall_forall. intros r Hr. apply pair_ins_in in Hr as [->|Hr]; [apply pair_le_total; auto|]. rewrite Forall_forall in F. auto. }
  induction l as [|p l IH]; cbn; [constructor|]. apply I. auto.
Qed.
Lemma made_sorted : forall v, iv_made v -> StronglySorted (fun p q => pair_le p q = true) (iv_pairs v).
Proof. intros v [ps E]. rewrite E. cbn [iv_new iv_pairs]. apply pair_sort_sorted. Qed.
Lemma sorted_front : forall A (R : A -> A -> Prop) a b, StronglySorted R (a ++ b) -> StronglySorted R a.
Proof. induction a as [|x a IH]; intros b H; [constructor|]. cbn in H. inversion H as [|? ? S F]; subst. constructor; eauto. apply Forall_app in F. tauto. Qed.
Lemma add_all : forall o ps, StronglySorted (fun p q => pair_le p q = true) ps -> fold_left (fun v p => iv_add v (fst p) (snd p)) ps (mkIV o []) = mkIV o ps.
Proof.
  intros o ps. induction ps as [|p ps IH] using rev_ind; intros H; auto. rewrite fold_left_app. cbn [fold_left]. rewrite IH by (eapply sorted_front; eauto). unfold iv_add. cbn [iv_op iv_pairs]. destruct p as [a b]. cbn [fst snd]. rewrite pair_sort_id; auto.
Qed.
Lemma lop_cast_code : forall o, lop_cast (lop_code o) = o. Proof. intros []; auto. Qed.
Lemma cop_cast_code : forall o, cop_cast (cop_code o) = o. Proof. intros []; auto. Qed.

Section Linear.
Variable iv_sort : list iv -> outcome (list iv).
Variable TOL : Qc.
Definition enc_kind (v : iv) : list nat := [lop_code (iv_op v); length (iv_pairs v)].
Definition enc_pair (p : nat * nat) : list nat := [fst p; snd p].
Definition enc_iv (v : iv) : list nat := concat (map enc_pair (iv_pairs v)).
Lemma lcf_read : forall sh cs valid invalid f ix vs ix' vs' dst, Forall (lc_legal sh) cs ->
  lcf_serialize f = Ret (ix, vs) -> lf_shape f = sh -> lf_constraints f = cs -> lf_valid f = valid -> lf_invalid f = invalid ->
  lcf_deserialize iv_sort (ix ++ ix') (vs ++ vs') dst = lcf_new iv_sort sh cs valid invalid.
Proof.
  intros sh cs valid invalid f ix vs ix' vs' dst HL E <- <- <- <-. injection E as <- <-. set (cs := lf_constraints f) in *. unfold lcf_deserialize.
  cbn [app next bind]. rewrite <- !app_assoc, nexts_ok. cbn [bind app next]. rewrite <- app_assoc. rewrite <- (map_length (fun c => cop_code (lc_op c)) cs) at 1. rewrite nexts_ok. cbn [bind].
  rewrite <- app_assoc. rewrite <- (map_length (fun c => length (lc_ivs c)) cs) at 1. rewrite nexts_ok. cbn [bind].
  rewrite <- app_assoc. rewrite (reads_map _ _ _ _ _ (fun c => length (lc_ivs c)) (fun c => concat (map enc_kind (lc_ivs c))) (fun c => map (fun v => (iv_op v, length (iv_pairs v))) (lc_ivs c))).
  2: { intros c t Hc. rewrite <- (map_length (fun v => (iv_op v, length (iv_pairs v))) (lc_ivs c)).
       pose proof (reads_count nat (lop * nat) (fun it => '(o, it0) <- next it ;; '(k, it1) <- next it0 ;; Ret ((lop_cast o, k), it1)) (fun k => [lop_code (fst k); snd k]) (map (fun v => (iv_op v, length (iv_pairs v))) (lc_ivs c)) t 0) as R.
       rewrite map_map in R. cbn [fst snd] in R. apply R. intros [o k] t0 _. cbn [fst snd app next bind]. rewrite lop_cast_code. auto. }
  cbn [bind]. rewrite (reads_map _ _ _ _ _ (fun c => map (fun v => (iv_op v, length (iv_pairs v))) (lc_ivs c)) (fun c => concat (map enc_iv (lc_ivs c))) lc_ivs).
  2: { intros c t Hc. rewrite (reads_map _ _ _ _ _ (fun v => (iv_op v, length (iv_pairs v))) enc_iv (fun v => v)). { rewrite map_id. auto. }
       intros v t0 Hv. cbn [snd fst]. unfold enc_iv. rewrite (reads_count nat (nat * nat) _ enc_pair (iv_pairs v) t0 0). 2: { intros [a b] t1 _. cbn. auto. } cbn [bind].
       unfold iv_default. rewrite add_all. { destruct v; auto. } apply made_sorted. rewrite Forall_forall in HL. destruct (HL c Hc) as [_ HF]. rewrite Forall_forall in HF. apply HF; auto. }
  cbn [bind]. rewrite <- (map_length lc_bound cs) at 1. rewrite nexts_ok. cbn [bind app next]. rewrite (reads_map _ _ _ _ _ (fun c => length (lc_ivs c)) lc_coeffs lc_coeffs).
  2: { intros c t Hc. rewrite Forall_forall in HL. destruct (HL c Hc) as [HE _]. rewrite <- HE. apply nexts_ok. }
  cbn [bind]. match goal with |- context [mapM ?F _] => assert (EM : mapM F (seq 0 (length cs)) = Ret cs) end.
  { rewrite (mapM_ext _ _ _ (rd cs)). { apply mapM_rd_all. } intros i Hi. apply in_seq in Hi. assert (N : nth_error cs i = Some (nth i cs lc_default)) by (apply nth_error_nth'; lia).
    rewrite !(rd_Ret _ _ _ _ (map_nth_error _ _ _ N)). cbn [bind]. rewrite (rd_Ret _ _ _ _ N). rewrite cop_cast_code.
    assert (Hc : lc_legal (lf_shape f) (nth i cs lc_default)) by (rewrite Forall_forall in HL; apply HL, nth_In; lia). destruct Hc as [HE _]. unfold lc_add_range. rewrite <- HE, mapM_rd_all. cbn [bind lc_ivs lc_coeffs lc_bound lc_op lc_setBound lc_setOp lc_default app].
    destruct (nth i cs lc_default); auto. }
  rewrite EM. cbn [bind]. auto.
Qed.
Lemma fold_sum : forall A (f : A -> nat) l s, fold_left (fun s a => s + f a) l s = s + list_sum (map f l).
Proof. intros A f. induction l as [|a l IH]; intros s; cbn [fold_left map]. { cbn. lia. } rewrite IH. unfold list_sum. cbn [fold_right]. lia. Qed.
Lemma length_concat : forall A (l : list (list A)), length (concat l) = list_sum (map (@length A) l).
Proof. induction l as [|a l IH]; cbn; auto. rewrite app_length, IH. auto. Qed.
Lemma sum_times : forall A (f : A -> nat) l k, list_sum (map (fun a => f a * k) l) = list_sum (map f l) * k.
Proof. induction l as [|a l IH]; intros k; cbn; auto. unfold list_sum in *. rewrite IH. lia. Qed.
Lemma lcf_sizes : forall f ix vs, lcf_serialize f = Ret (ix, vs) -> length ix = lcf_indexSequenceSize f /\ length vs = lcf_valueSequenceSize f.
Proof.
  intros f ix vs E. injection E as <- <-. unfold lcf_indexSequenceSize, lcf_valueSequenceSize. set (cs := lf_constraints f). split.
  - cbn [length]. rewrite !app_length. cbn [length]. rewrite !app_length, !map_length, !length_concat, !map_map. rewrite (fold_sum _ (fun c => length (lc_ivs c))).
    assert (E2 : forall l s, fold_left (fun s c => fold_left (fun s v => s + length (iv_pairs v)) (lc_ivs c) s) l s = s + list_sum (map (fun c => list_sum (map (fun v => length (iv_pairs v)) (lc_ivs c))) l)).
    { induction l as [|c l IH]; intros s; cbn [fold_left map]. { cbn. lia. } rewrite IH, fold_sum. unfold list_sum. cbn [fold_right]. lia. }
    rewrite E2, !Nat.add_0_l. rewrite <- !sum_times.
    rewrite (map_ext (fun x => length (concat (map (fun v => [lop_code (iv_op v); length (iv_pairs v)]) (lc_ivs x)))) (fun c => length (lc_ivs c) * 2)).
    2: { intros c. rewrite length_concat, map_map. cbn [length]. generalize (lc_ivs c). induction l as [|a l IH]; cbn in *; auto. }
    rewrite (map_ext (fun x => length (concat (map (fun v => concat (map (fun p => [fst p; snd p]) (iv_pairs v))) (lc_ivs x)))) (fun c => list_sum (map (fun v => length (iv_pairs v)) (lc_ivs c)) * 2)).
    2: { intros c. rewrite length_concat, map_map, <- sum_times. f_equal. apply map_ext. intros v. rewrite length_concat, map_map. cbn [length]. generalize (iv_pairs v). induction l as [|a l IH]; cbn in *; auto. }
    lia.
  - rewrite app_length. cbn [length]. rewrite map_length, length_concat, map_map. rewrite (fold_sum _ (fun c => length (lc_coeffs c))). lia.
Qed.
End Linear.
(** ** LabelOrderFunction *)
Lemma lof_read : forall n1 n2 order valid invalid f ix vs ix' vs' dst, lo_n1 f = n1 -> lo_n2 f = n2 -> lo_order f = order -> lo_valid f = valid -> lo_invalid f = invalid ->
  lof_serialize f = Ret (ix, vs) -> lof_deserialize (ix ++ ix') (vs ++ vs') dst = lof_new n1 n2 order valid invalid /\ length ix = 3 /\ length vs = length order + 2.
Proof.
  intros n1 n2 order valid invalid f ix vs ix' vs' dst <- <- <- <- <- E. unfold lof_serialize in E. rewrite mapM_rd_all in E. cbn [bind] in E. injection E as <- <-.
  split; [|split; auto; rewrite app_length; auto]. unfold lof_deserialize. cbn [app next bind]. rewrite <- app_assoc, nexts_ok. cbn [bind app next]. auto.
Qed.
(** ** Numbers of labels *)
Definition vs_origin (s : vshape) (sh : list nat) : Prop :=
  (s = vs_list sh /\ positive sh /\ (Z.of_nat (size_of sh) < 2 ^ 31)%Z /\ small (length sh)) \/
  (exists n k, small n /\ small k /\ sh = repeat k n /\ vs_uniform n k = Ret s).
Lemma origin_ok : forall s sh, vs_origin s sh -> vs_ok s sh.
Proof.
  intros s sh [(-> & _)|(n & k & Hn & Hk & -> & E)]. { apply vs_list_ok. } destruct (vs_uniform_ok n k Hn Hk) as (s' & E' & H & _). congruence.
Qed.
Lemma size_of_repeat : forall k n, size_of (repeat k n) = k ^ n.
Proof. intros k. induction n as [|n IH]; auto. cbn [repeat]. change (size_of (k :: repeat k n)) with (k * size_of (repeat k n)). rewrite IH. auto. Qed.
Definition vs_back (s : vshape) (w : list nat) : outcome vshape := if vs_same s then k <- rd w 0 ;; vs_uniform (vs_num s) k else Ret (vs_list w).
Lemma vs_round : forall s sh, vs_origin s sh -> exists w, vs_write s = Ret w /\ length w = (if vs_same s then 1 else vs_num s) /\ (vs_same s = false -> length (vs_shape s) = vs_num s) /\
  (vs_same s = false -> w = sh) /\ exists s', vs_back s w = Ret s' /\ vs_ok s' sh /\ vs_num s' = vs_num s /\ vs_same s' = vs_same s /\ vs_size s' = vs_size s /\ (vs_same s = false -> vs_shape s' = vs_shape s).
Proof.
  intros s sh HO. pose proof (origin_ok _ _ HO) as (O1 & O2 & O3 & O4 & O5). unfold vs_write, vs_back. destruct (vs_same s) eqn:ES.
  - eexists. split; [reflexivity|]. split; auto. split; [discriminate|]. split; [discriminate|]. change (rd [vs_max s] 0) with (Ret (vs_max s)). cbn [bind]. destruct HO as [(-> & HP & HB & HN)|(n & k & Hn & Hk & -> & E)].
    + assert (HK : small (vs_max (vs_list sh))). { unfold small. destruct O5 as [->|I]; [reflexivity|]. assert (vs_max (vs_list sh) <= size_of sh).
        { clear - I HP. revert I. generalize (vs_max (vs_list sh)). intros m I. induction HP as [|a l Ha HP IH]; [destruct I|]. change (size_of (a :: l)) with (a * size_of l). pose proof (size_of_pos l HP). destruct I as [->|I]; [nia|]. specialize (IH I). nia. } lia. }
      rewrite <- O1 in HN. destruct (vs_uniform_ok (vs_num (vs_list sh)) (vs_max (vs_list sh)) HN HK) as (s' & E & V1 & V2 & V3 & V4). rewrite E. exists s'. split; auto. rewrite <- (O2 eq_refl) in V1. split; auto.
      split. { destruct V1 as (X & _). rewrite X. auto. } split; auto. split; [|discriminate]. rewrite V4. cbn [vs_size vs_list]. rewrite accumulate_size_spec by auto. assert (SZ : size_of sh = vs_max (vs_list sh) ^ vs_num (vs_list sh)) by (rewrite <- size_of_repeat; f_equal; auto).
      rewrite SZ, Nat2Z.inj_pow in *. rewrite N.mod_small. { rewrite N2Z.inj_pow, !nat_N_Z. auto. }
      apply N2Z.inj_lt. rewrite N2Z.inj_pow, !nat_N_Z. eapply Z.lt_trans; [apply HB|]. reflexivity.
    + destruct (vs_uniform_ok n k Hn Hk) as (s' & E' & V1 & V2 & V3 & V4). assert (s' = s) by congruence. subst s'. rewrite V3. destruct V1 as (N & V1). rewrite repeat_length in N. rewrite N, E. exists s. split; auto. split. { split; auto. } repeat split; auto; discriminate.
  - assert (L : length (vs_shape s) = vs_num s) by (rewrite (O3 eq_refl); auto). rewrite mapM_rd_all. eexists. split; [reflexivity|]. split; auto. split; auto. split. { intros _. auto. } rewrite (O3 eq_refl). eexists. split; [reflexivity|].
    destruct HO as [(-> & HP & HB & HN)|(n & k & Hn & Hk & -> & E)].
    + split. { apply vs_list_ok. } repeat split; auto.
    + exfalso. destruct (vs_uniform_ok n k Hn Hk) as (s' & E' & _ & V2 & _). assert (s' = s) by congruence. subst. congruence.
Qed.
