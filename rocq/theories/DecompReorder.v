(** Proofs about GraphicalModelDecomposition::reorder. *)
From Coq Require Import Sorted Permutation.
From Verif Require Import Base DecompModel FactorGraphModel FactorGraphSpec DecompSpec DecompProofs.
#[local] Arguments nth_error : simpl never.

Definition cnt (m : nat) (P : list (nat * nat)) : nat := length (filter (fun p => fst p =? m) P).
Lemma cnt_app : forall m P Q, cnt m (P ++ Q) = cnt m P + cnt m Q.
Proof. intros. unfold cnt. rewrite filter_app, app_length. reflexivity. Qed.
Lemma cnt_one : forall m p, cnt m [p] = if Nat.eq_dec (fst p) m then 1 else 0.
Proof. intros m p. unfold cnt. cbn [filter]. destruct (Nat.eqb_spec (fst p) m), (Nat.eq_dec (fst p) m); auto; lia. Qed.

(** The numbers given to the copies [l] after the copies [P] have been numbered. *)
Fixpoint numb (P l : list (nat * nat)) : list (nat * nat) :=
  match l with [] => [] | p :: t => (fst p, cnt (fst p) P) :: numb (P ++ [p]) t end.

Section R.
Variable nsv : list nat.
Definition ren_of (t : list (list nat)) (m k : nat) : nat := nth k (nth m t []) 0.
Record RI (P : list (nat * nat)) (t : list (list nat)) (c : list nat) : Prop := {
  ri_len : length t = length nsv /\ length c = length nsv;
  ri_row : forall m, length (nth m t []) = nth m nsv 0;
  ri_cnt : forall m, m < length nsv -> nth m c 0 = cnt m P;
  ri_num : forall i m k, nth_error P i = Some (m, k) -> ren_of t m k = cnt m (firstn i P) }.

Lemma renumber_copies : forall l P t c out, RI P t c -> NoDup (P ++ l) -> (forall m k, In (m, k) l -> m < length nsv /\ k < nth m nsv 0) ->
  exists t' c', foldM renumber_copy l (t, c, out) = Ret (t', c', out ++ numb P l) /\ RI (P ++ l) t' c'.
Proof.
  induction l as [|[m k] l IH]; intros P t c out H ND B; cbn [foldM numb]. { exists t, c. rewrite !app_nil_r. auto. }
  destruct H as [[L1 L2] RW CN NU]. destruct (B m k (or_introl eq_refl)) as [B1 B2]. unfold renumber_copy at 1. cbn [fst snd].
  rewrite (rd_nth _ c m 0) by lia. cbn [bind]. unfold wr2. rewrite (rd_nth _ t m []) by lia. cbn [bind]. rewrite wr_Ret by (rewrite RW; auto). cbn [bind].
  rewrite wr_Ret by lia. cbn [bind]. rewrite wr_Ret by lia. cbn [bind].
  destruct (IH (P ++ [(m, k)]) (upd t m (upd (nth m t []) k (nth m c 0))) (upd c m (S (nth m c 0))) (out ++ [(m, nth m c 0)])) as [t' [c' [E1 E2]]].
  - split.
    + rewrite !length_upd. auto.
    + intros m'. rewrite nth_upd by lia. destruct (Nat.eq_dec m m') as [<-|]; auto. rewrite length_upd. auto.
    + intros m' Hm. rewrite nth_upd by lia. rewrite cnt_app, cnt_one. cbn [fst]. destruct (Nat.eq_dec m m') as [<-|]; rewrite CN by lia; lia.
    + intros i m' k' Hi. destruct (Nat.lt_ge_cases i (length P)) as [Li|Li].
      * rewrite nth_error_app1 in Hi by auto. rewrite firstn_app. replace (i - length P) with 0 by lia. cbn [firstn]. rewrite app_nil_r.
        rewrite <- (NU i m' k' Hi). unfold ren_of. rewrite nth_upd by lia. destruct (Nat.eq_dec m m') as [<-|]; auto.
        rewrite nth_upd by (rewrite RW; auto). destruct (Nat.eq_dec k k') as [<-|]; auto. exfalso.
        apply NoDup_remove_2 in ND. apply ND. apply in_or_app. left. apply nth_error_In in Hi. auto.
      * rewrite nth_error_app2 in Hi by auto. destruct (i - length P) as [|j] eqn:Ej; [|destruct j; discriminate]. injection Hi as <- <-.
        rewrite firstn_app, Ej. cbn [firstn]. rewrite app_nil_r, firstn_all2 by auto. unfold ren_of. rewrite nth_upd by lia. destruct (Nat.eq_dec m m); [|lia].
        rewrite nth_upd by (rewrite RW; auto). destruct (Nat.eq_dec k k); [|lia]. apply CN. auto.
  - rewrite <- app_assoc. exact ND.
  - intros m' k' Hi. apply B. cbn. auto.
  - exists t', c'. rewrite E1. rewrite (CN m B1), <- !app_assoc. cbn [app]. rewrite <- app_assoc in E2. split; auto.
Qed.

Lemma numb_ren : forall l P Q t c, RI (P ++ l ++ Q) t c -> numb P l = map (fun p => (fst p, ren_of t (fst p) (snd p))) l.
Proof.
  induction l as [|[m k] l IH]; intros P Q t c H; auto. cbn [numb map fst snd]. f_equal.
  - f_equal. rewrite (ri_num _ _ _ H (length P)) by (rewrite nth_error_app2, Nat.sub_diag by lia; reflexivity).
    rewrite firstn_app, Nat.sub_diag, firstn_all. cbn [firstn]. rewrite app_nil_r. auto.
  - apply (IH (P ++ [(m, k)]) Q t c). rewrite <- app_assoc. exact H.
Qed.

Lemma ren_inj : forall P t c, RI P t c -> forall m k l, In (m, k) P -> In (m, l) P -> ren_of t m k = ren_of t m l -> k = l.
Proof.
  intros P t c H m k l I1 I2 E. apply In_nth_error in I1, I2. destruct I1 as [i I1], I2 as [j I2].
  rewrite (ri_num _ _ _ H _ _ _ I1), (ri_num _ _ _ H _ _ _ I2) in E.
  assert (Q : forall i j k, i < j -> nth_error P i = Some (m, k) -> cnt m (firstn i P) < cnt m (firstn j P)).
  { clear. intros i j k L I. replace (firstn j P) with (firstn i P ++ (m, k) :: firstn (j - S i) (skipn (S i) P)).
    - rewrite cnt_app. unfold cnt at 3. cbn [filter fst]. rewrite Nat.eqb_refl. cbn [length]. lia.
    - revert i j I L. induction P as [|p P IH]; intros [|i] [|j] I L; try lia; try discriminate.
      + injection I as ->. cbn [firstn skipn app]. rewrite Nat.sub_succ, Nat.sub_0_r. auto.
      + cbn [firstn app]. f_equal. cbn [skipn]. rewrite Nat.sub_succ. apply IH; auto; lia. }
  destruct (Nat.lt_trichotomy i j) as [T|[T|T]].
  - specialize (Q _ _ _ T I1). lia.
  - subst j. congruence.
  - specialize (Q _ _ _ T I2). lia.
Qed.
Lemma ren_before : forall P Q t c, RI (P ++ Q) t c -> forall m k l, In (m, k) P -> In (m, l) Q -> ren_of t m k < ren_of t m l.
Proof.
  intros P Q t c H m k l I1 I2. apply In_nth_error in I1, I2. destruct I1 as [i I1], I2 as [j I2].
  assert (i < length P) by (apply nth_error_Some; congruence).
  rewrite (ri_num _ _ _ H i m k) by (rewrite nth_error_app1; auto). rewrite (ri_num _ _ _ H (length P + j) m l) by (rewrite nth_error_app2 by lia; rewrite Nat.add_comm, Nat.add_sub; auto).
  rewrite firstn_app. replace (i - length P) with 0 by lia. cbn [firstn]. rewrite app_nil_r. rewrite firstn_app. rewrite (@firstn_all2 _ (length P + j) P) by lia. rewrite cnt_app.
  rewrite <- (firstn_skipn i P) at 2. rewrite cnt_app. enough (0 < cnt m (skipn i P)) by lia.
  assert (X : nth_error (skipn i P) 0 = Some (m, k)). { rewrite <- I1. clear. revert i. induction P as [|p P IH]; intros [|i]; auto. apply IH. }
  destruct (skipn i P); [discriminate|]. injection X as ->. unfold cnt. cbn [filter fst]. rewrite Nat.eqb_refl. cbn. lia.
Qed.
End R.

Lemma NoDup_concat_intro : forall A (L : list (list A)), (forall l, In l L -> NoDup l) ->
  (forall i j x, In x (nth i L []) -> In x (nth j L []) -> i = j) -> NoDup (concat L).
Proof.
  induction L as [|l L IH]; intros H1 H2; cbn; [constructor|]. apply NoDup_app_intro.
  - apply H1. cbn. auto.
  - apply IH. { intros l' I. apply H1. cbn. auto. } intros i j x I J. assert (E : S i = S j) by (apply (H2 (S i) (S j) x); auto). lia.
  - intros x I J. apply in_concat in J. destruct J as [l' [J1 J2]]. apply (In_nth _ _ []) in J1. destruct J1 as [j [_ <-]].
    assert (E : 0 = S j) by (apply (H2 0 (S j) x); auto). discriminate.
Qed.

Lemma NoDup_map_in : forall A B (f : A -> B) l, (forall a b, In a l -> In b l -> f a = f b -> a = b) -> NoDup l -> NoDup (map f l).
Proof.
  induction l as [|x l IH]; intros H N; cbn [map]; [constructor|]. inversion N; subst. constructor. 2:{ apply IH; auto. intros. apply H; cbn; auto. }
  intros I. apply in_map_iff in I. destruct I as [y [E I]]. apply H2. rewrite (H x y); cbn; auto.
Qed.
Lemma NoDup_app_left : forall A (a b : list A), NoDup (a ++ b) -> NoDup a.
Proof. induction a as [|x a IH]; intros b H; [constructor|]. inversion H; subst. constructor; [|eauto]. intros I. apply H2. apply in_or_app. auto. Qed.

Section S.
Variable nv : nat.
Variable fs : list (list nat).
Variable d : dec.
Hypothesis DC : decomposes nv fs d.

Lemma copies_nodup : NoDup (concat (d_vl d)).
Proof.
  apply NoDup_concat_intro.
  - intros l I. apply (In_nth _ _ []) in I. destruct I as [v [_ <-]]. apply (dc_once _ _ _ DC).
  - intros u v [m k] U V. destruct (dc_range _ _ _ DC _ _ _ U) as [_ [R1 R2]]. destruct (dc_exact _ _ _ DC m k R1 R2) as [w [_ W]].
    rewrite <- (W u U), <- (W v V). auto.
Qed.
Lemma copies_range : forall m k, In (m, k) (concat (d_vl d)) -> m < length (d_nsv d) /\ k < nth m (d_nsv d) 0.
Proof.
  intros m k H. apply in_concat in H. destruct H as [l [H1 H2]]. apply (In_nth _ _ []) in H1. destruct H1 as [v [_ <-]].
  destruct (dc_range _ _ _ DC _ _ _ H2) as [_ [R1 R2]]. rewrite (proj1 (dc_nm _ _ _ DC)). auto.
Qed.
Lemma copies_all : forall m k, m < d_nm d -> k < nth m (d_nsv d) 0 -> In (m, k) (concat (d_vl d)).
Proof.
  intros m k H1 H2. destruct (dc_exact _ _ _ DC m k H1 H2) as [v [V _]]. apply in_concat. exists (nth v (d_vl d) []). split; auto. apply nth_In. apply (nth_In_lt _ _ _ _ V).
Qed.
Lemma sub_table_ok : sub_table d = Ret (map (fun n => repeat 0 n) (d_nsv d)).
Proof.
  unfold sub_table. rewrite <- (proj1 (dc_nm _ _ _ DC)). rewrite (mapM_ok _ _ _ (fun m => repeat 0 (nth m (d_nsv d) 0))).
  - f_equal. generalize (d_nsv d). intros l. induction l as [|x l IH]; auto. cbn [length seq map nth]. f_equal. rewrite <- seq_shift, map_map. exact IH.
  - intros m H. apply in_seq in H. rewrite (rd_nth _ _ m 0) by lia. reflexivity.
Qed.
Lemma RI_init : RI (d_nsv d) [] (map (fun n => repeat 0 n) (d_nsv d)) (repeat 0 (d_nm d)).
Proof.
  destruct (dc_nm _ _ _ DC) as [M1 M2]. split.
  - rewrite map_length, repeat_length. auto.
  - intros m. destruct (Nat.lt_ge_cases m (length (d_nsv d))). { rewrite (nth_indep _ [] (repeat 0 0)) by (rewrite map_length; auto). rewrite (map_nth (fun n => repeat 0 n)). apply repeat_length. }
    rewrite !nth_overflow; auto. rewrite map_length. auto.
  - intros m H. rewrite nth_repeat. reflexivity.
  - intros i m k H. destruct i; discriminate.
Qed.

Lemma renumber_ok : exists t c, renumber d = Ret (t, map (map (fun p => (fst p, ren_of t (fst p) (snd p)))) (d_vl d)) /\ RI (d_nsv d) (concat (d_vl d)) t c.
Proof.
  unfold renumber. rewrite sub_table_ok. cbn [bind].
  set (g := fun st v => _).
  assert (L : forall n t c P out, n = length P -> n <= length (d_vl d) -> P = firstn n (d_vl d) -> RI (d_nsv d) (concat P) t c ->
    exists t' c', foldM g (seq n (length (d_vl d) - n)) (t, c, out) = Ret (t', c', out ++ map (map (fun p => (fst p, ren_of t' (fst p) (snd p)))) (skipn n (d_vl d))) /\ RI (d_nsv d) (concat (d_vl d)) t' c').
  { intros n. remember (length (d_vl d) - n) as q eqn:Eq. revert n Eq. induction q as [|q IH]; intros n Eq t c P out E1 E2 E3 H; cbn [seq foldM].
    - exists t, c. rewrite skipn_all2 by lia. cbn [map]. rewrite app_nil_r. split; auto. rewrite E3, firstn_all2 in H by lia. auto.
    - assert (Ln : n < length (d_vl d)) by lia. unfold g at 1. rewrite (rd_nth _ (d_vl d) n []) by lia. cbn [bind].
      assert (SPL : d_vl d = P ++ nth n (d_vl d) [] :: skipn (S n) (d_vl d)).
      { rewrite E3 at 1. rewrite <- (firstn_skipn n (d_vl d)) at 1. f_equal. clear - Ln. revert n Ln. induction (d_vl d) as [|x l IH]; intros [|n] L; cbn in L; try lia; auto. cbn [skipn nth]. apply IH. lia. }
      destruct (renumber_copies (d_nsv d) (nth n (d_vl d) []) (concat P) t c [] H) as [t' [c' [G1 G2]]].
      { pose proof copies_nodup as ND. rewrite SPL, concat_app in ND. cbn [concat] in ND. rewrite app_assoc in ND. apply NoDup_app_left in ND. auto. }
      { intros m k I. apply copies_range. apply in_concat. exists (nth n (d_vl d) []). split; auto. apply nth_In. auto. }
      rewrite G1. cbn [bind app].
      destruct (IH (S n) ltac:(lia) t' c' (P ++ [nth n (d_vl d) []]) (out ++ [numb (concat P) (nth n (d_vl d) [])])) as [t2 [c2 [F1 F2]]].
      { rewrite app_length. cbn. lia. } { lia. }
      { rewrite E3. clear - Ln. revert n Ln. induction (d_vl d) as [|x l IH]; intros [|n] L; cbn in L; try lia; auto. rewrite !firstn_cons. cbn [app nth]. f_equal. apply IH. lia. }
      { rewrite concat_app. cbn [concat]. rewrite app_nil_r. auto. }
      exists t2, c2. split; auto. rewrite F1. do 2 f_equal. rewrite <- app_assoc. f_equal. cbn [app].
      assert (SK : skipn n (d_vl d) = nth n (d_vl d) [] :: skipn (S n) (d_vl d)).
      { clear - Ln. revert n Ln. induction (d_vl d) as [|x l IH]; intros [|n] L; cbn in L; try lia; auto. cbn [skipn nth]. apply IH. lia. }
      rewrite SK. cbn [map]. f_equal. apply (numb_ren (d_nsv d) _ _ (concat (skipn (S n) (d_vl d))) t2 c2).
      rewrite SPL, concat_app in F2. exact F2. }
  destruct (L 0 _ _ [] [] eq_refl ltac:(lia) eq_refl RI_init) as [t [c [E1 E2]]]. rewrite Nat.sub_0_r in E1.
  destruct (dc_nv _ _ _ DC) as [N1 N2]. rewrite N1. rewrite N2 in E1. rewrite E1. cbn [bind app skipn]. exists t, c. auto.
Qed.

Lemma reorder_ok : exists ren d', reorder d = Ret d' /\ renames ren d d' /\ ordered d' /\ decomposes nv fs d'.
Proof.
  unfold reorder. destruct renumber_ok as [t [c [E H]]]. rewrite E. cbn [bind]. set (ren := ren_of t).
  assert (RL : forall key s, s_model s < d_nm d -> copies_of d key (s_model s) (s_idx s) -> relabel t s = Ret (mkSub (s_model s) (s_id s) (map (ren (s_model s)) (s_idx s)))).
  { intros key s Hm C. unfold relabel. rewrite (mapM_ok _ _ _ (ren (s_model s))); auto. intros k I. unfold copies_of in C.
    assert (Hk : k < nth (s_model s) (d_nsv d) 0). { clear - C I DC. induction C as [|v k' vs idx C1 C2 IH]; [destruct I|]. destruct I as [->|I]; auto. apply (dc_range _ _ _ DC _ _ _ C1). }
    destruct (ri_len _ _ _ _ H) as [L1 _]. destruct (dc_nm _ _ _ DC) as [M1 _]. unfold rd2. rewrite (rd_nth _ t (s_model s) []) by lia. cbn [bind]. apply rd_nth. rewrite (ri_row _ _ _ _ H). auto. }
  rewrite (mapM_ok _ _ _ (map (fun s => mkSub (s_model s) (s_id s) (map (ren (s_model s)) (s_idx s))))).
  2:{ intros l I. apply mapM_ok. intros s J. apply (In_nth _ _ []) in I. destruct I as [f [_ <-]]. destruct (dc_factor _ _ _ DC f s J) as [J1 J2]. eapply RL; eauto. }
  cbn [bind]. rewrite (mapM_ok _ _ _ (fun e => (fst e, map (fun s => mkSub (s_model s) (s_id s) (map (ren (s_model s)) (s_idx s))) (snd e)))).
  2:{ intros [key l] I. cbn [fst snd]. rewrite (mapM_ok _ _ _ (fun s => mkSub (s_model s) (s_id s) (map (ren (s_model s)) (s_idx s)))); auto.
      intros s J. destruct (dc_empty _ _ _ DC key l s I J) as [J1 J2]. eapply RL; eauto. }
  cbn [bind]. set (d' := set_el _ _). exists ren, d'. split; [reflexivity|].
  assert (INJ : forall m k l, m < d_nm d -> k < nth m (d_nsv d) 0 -> l < nth m (d_nsv d) 0 -> ren m k = ren m l -> k = l).
  { intros m k l Hm Hk Hl. apply (ren_inj _ _ _ _ H); apply copies_all; auto. }
  assert (REN : renames ren d d') by (repeat split; auto).
  assert (CP : forall v m k, copy_of d' v m k <-> exists k0, copy_of d v m k0 /\ k = ren m k0).
  { intros v m k. unfold copy_of. cbn [d_vl d' set_el set_fl set_vl]. change (@nil (nat * nat)) with (map (fun p : nat * nat => (fst p, ren_of t (fst p) (snd p))) []) at 1. rewrite map_nth. rewrite in_map_iff. split.
    - intros [[m0 k0] [I J]]. cbn in I. injection I as <- <-. exists k0. auto.
    - intros [k0 [J ->]]. exists (m, k0). auto. }
  assert (RANGE : forall m k, m < d_nm d -> k < nth m (d_nsv d) 0 -> ren m k < nth m (d_nsv d) 0).
  { intros m k Hm Hk. pose proof (copies_all m k Hm Hk) as I. apply In_nth_error in I. destruct I as [i I]. unfold ren. rewrite (ri_num _ _ _ _ H _ _ _ I).
    assert (C : cnt m (concat (d_vl d)) = nth m (d_nsv d) 0).
    { unfold cnt. rewrite <- (map_length snd). transitivity (length (seq 0 (nth m (d_nsv d) 0))); [|apply seq_length].
      assert (ND : NoDup (map snd (filter (fun p => fst p =? m) (concat (d_vl d))))).
      { pose proof copies_nodup as ND. clear - ND. induction (concat (d_vl d)) as [|[a b] l IH]; cbn [filter map]; [constructor|]. inversion ND; subst. cbn [fst]. destruct (Nat.eqb_spec a m) as [->|]; auto.
        cbn [map snd]. constructor; auto. intros Q. apply in_map_iff in Q. destruct Q as [[a' b'] [Q1 Q2]]. cbn in Q1. subst b'. apply filter_In in Q2. destruct Q2 as [Q2 Q3]. cbn in Q3. apply Nat.eqb_eq in Q3. subst. auto. }
      apply Nat.le_antisymm; apply NoDup_incl_length; auto; [|apply seq_NoDup|].
      - intros x Ix. apply in_map_iff in Ix. destruct Ix as [[a b] [<- Ix]]. apply filter_In in Ix. destruct Ix as [Ix Q]. cbn in Q. apply Nat.eqb_eq in Q. subst. apply in_seq. apply copies_range in Ix. cbn. lia.
      - intros x Ix. apply in_seq in Ix. apply in_map_iff. exists (m, x). split; auto. apply filter_In. split; [apply copies_all; auto; lia|]. cbn. apply Nat.eqb_refl. }
    rewrite <- C. rewrite <- (firstn_skipn i (concat (d_vl d))) at 2. rewrite cnt_app. enough (0 < cnt m (skipn i (concat (d_vl d)))) by lia.
    assert (X : nth_error (skipn i (concat (d_vl d))) 0 = Some (m, k)). { rewrite <- I. clear. generalize (concat (d_vl d)). intros l. revert i. induction l as [|p l IH]; intros [|i]; auto. apply IH. }
    destruct (skipn i (concat (d_vl d))); [discriminate|]. injection X as ->. unfold cnt. cbn [filter fst]. rewrite Nat.eqb_refl. cbn. lia. }
  assert (SURJ : forall m k, m < d_nm d -> k < nth m (d_nsv d) 0 -> exists k0, k0 < nth m (d_nsv d) 0 /\ ren m k0 = k).
  { intros m k Hm Hk. assert (I : In k (map (ren m) (seq 0 (nth m (d_nsv d) 0)))).
    { apply (NoDup_length_incl (l := map (ren m) (seq 0 (nth m (d_nsv d) 0))) (l' := seq 0 (nth m (d_nsv d) 0))).
      - apply NoDup_map_in; [|apply seq_NoDup]. intros a b Ia Ib. apply in_seq in Ia, Ib. apply INJ; auto; lia.
      - rewrite map_length, seq_length. auto.
      - intros x Ix. apply in_map_iff in Ix. destruct Ix as [y [<- Iy]]. apply in_seq in Iy. apply in_seq. specialize (RANGE m y Hm). lia.
      - apply in_seq. lia. }
    apply in_map_iff in I. destruct I as [k0 [I1 I2]]. apply in_seq in I2. exists k0. split; [lia|auto]. }
  assert (CPS : forall key m idx, copies_of d key m idx -> copies_of d' key m (map (ren m) idx)).
  { intros key m idx C. unfold copies_of in *. induction C; cbn [map]; constructor; auto. apply CP. eauto. }
  split; auto. split.
  - intros u v m k l U V L. apply CP in U, V. destruct U as [k0 [U ->]], V as [l0 [V ->]].
    apply (ren_before (d_nsv d) (concat (firstn (S u) (d_vl d))) (concat (skipn (S u) (d_vl d))) t c).
    + rewrite <- concat_app, firstn_skipn. auto.
    + apply in_concat. exists (nth u (d_vl d) []). split; auto. pose proof (nth_In_lt _ _ _ _ U) as Lu. clear - Lu. revert u Lu. induction (d_vl d) as [|x l IH]; intros [|u] Lu; cbn in Lu; try lia; cbn [firstn nth In]; auto. right. apply IH. lia.
    + apply in_concat. exists (nth v (d_vl d) []). split; auto. pose proof (nth_In_lt _ _ _ _ V) as Lv. clear - Lv L. revert u v L Lv. induction (d_vl d) as [|x l IH]; intros u v L Lv; cbn in Lv; try lia. cbn [skipn].
      destruct v as [|v]; [lia|]. cbn [nth]. destruct u as [|u]. { cbn [skipn]. apply nth_In. lia. } apply IH; lia.
  - destruct DC as [N F M R X O A EM]. split; auto.
    + cbn. rewrite map_length. auto.
    + cbn. rewrite map_length. auto.
    + intros v m k C. apply CP in C. destruct C as [k0 [C ->]]. destruct (R _ _ _ C) as [R1 [R2 R3]]. cbn. split; auto.
    + intros m k Hm Hk. cbn in Hm, Hk. destruct (SURJ m k Hm Hk) as [k0 [S1 S2]]. destruct (X m k0 Hm S1) as [v [V1 V2]]. exists v. split.
      * apply CP. exists k0. auto.
      * intros w W. apply CP in W. destruct W as [k1 [W1 W2]]. apply V2. destruct (R _ _ _ W1) as [_ [_ R3]]. assert (k0 = k1) as -> by (apply (INJ m); auto; congruence). auto.
    + intros v. cbn [d_vl d' set_el set_fl set_vl]. change (@nil (nat * nat)) with (map (fun p : nat * nat => (fst p, ren_of t (fst p) (snd p))) []). rewrite map_nth.
      apply NoDup_map_in; [|apply O]. intros [a b] [a' b'] I1 I2 Q. cbn in Q. injection Q as <- Q. f_equal. destruct (R v a b I1) as [_ [R2 R3]]. destruct (R v a b' I2) as [_ [_ R4]]. apply (INJ a); auto.
    + intros f s I. cbn [d_fl d' set_el set_fl set_vl] in I. change (@nil sub) with (map (fun s => mkSub (s_model s) (s_id s) (map (ren (s_model s)) (s_idx s))) []) in I. rewrite map_nth in I.
      apply in_map_iff in I. destruct I as [s0 [<- I]]. cbn [s_model s_idx]. destruct (A f s0 I) as [A1 A2]. split; auto.
    + intros key l s I J. cbn [d_el d' set_el set_fl set_vl] in I. apply in_map_iff in I. destruct I as [[key0 l0] [Q I]]. cbn in Q. injection Q as <- <-. apply in_map_iff in J. destruct J as [s0 [<- J]].
      destruct (EM _ _ _ I J) as [A1 A2]. cbn [s_model s_idx]. split; auto.
Qed.
End S.
