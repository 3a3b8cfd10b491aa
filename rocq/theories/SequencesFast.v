(** FastSequence: every operation does what the specification says, and touches no other sequence. *)
From Verif Require Import Base SequencesModel SequencesSpec SequencesProofs.
#[local] Arguments nth_error : simpl never.

Section Agree.
Variable A : Type.
Definition agree (els : list (option A)) (b : list (option A)) : Prop := forall k v, nth_error els k = Some (Some v) -> nth_error b k = Some (Some v).
Lemma agree_copy : forall els b r, agree els b -> length els <= length b -> agree els (firstn (length els) b ++ r).
Proof.
  intros els b r G L k v E. assert (k < length els) by (apply nth_error_Some; congruence). rewrite nth_error_app1 by (rewrite firstn_length; lia).
  rewrite <- (G k v E). rewrite <- (firstn_skipn (length els) b) at 2. rewrite nth_error_app1; auto. rewrite firstn_length. lia.
Qed.
Lemma agree_none : forall n b, agree (repeat None n) b.
Proof. intros n b k v E. apply nth_error_In, repeat_spec in E. discriminate. Qed.
Lemma agree_range : forall l r, agree (map Some l) (map Some l ++ r).
Proof. intros l r k v E. rewrite nth_error_app1; auto. apply nth_error_Some. congruence. Qed.
Lemma agree_push : forall els b v, agree els b -> length els < length b -> agree (els ++ [Some v]) (upd b (length els) (Some v)).
Proof.
  intros els b v G L k w E. assert (k < length (els ++ [Some v])) by (apply nth_error_Some; congruence). rewrite app_length in H. cbn in H. destruct (Nat.eq_dec k (length els)) as [->|N].
  - rewrite nth_error_app2, Nat.sub_diag in E by lia. rewrite nth_error_upd_eq by auto. exact E.
  - rewrite nth_error_app1 in E by lia. rewrite nth_error_upd_neq by auto. apply G. auto.
Qed.
Lemma agree_set : forall els b k v, agree els b -> k < length els -> length els <= length b -> agree (upd els k (Some v)) (upd b k (Some v)).
Proof.
  intros els b k v G L L' j w E. destruct (Nat.eq_dec j k) as [->|N].
  - rewrite nth_error_upd_eq in E by auto. rewrite nth_error_upd_eq by lia. auto.
  - rewrite nth_error_upd_neq in E by auto. rewrite nth_error_upd_neq by auto. apply G. auto.
Qed.
Lemma agree_resized : forall els b n, agree els b -> agree (resized A els n) b.
Proof.
  intros els b n G k v E. unfold resized in E. destruct (Nat.lt_ge_cases k (length (firstn n els))) as [H|H].
  - rewrite nth_error_app1 in E by auto. apply G. rewrite <- (firstn_skipn n els). rewrite nth_error_app1; auto.
  - rewrite nth_error_app2 in E by auto. apply nth_error_In, repeat_spec in E. discriminate.
Qed.
Lemma length_resized : forall els n, length (resized A els n) = n.
Proof. intros. unfold resized. rewrite app_length, firstn_length, repeat_length. lia. Qed.
Lemma repeat_map : forall (v : A) n, repeat (Some v) n = map Some (repeat v n).
Proof. induction n; cbn; f_equal; auto. Qed.
End Agree.

Section Frame.
Variable A : Type.
Notation heap := (list (option (list (option A)))).
(** The old block is freed, a new one is appended. *)
Lemma frame_replace : forall (h h' : heap) p, length h' = S (length h) -> (forall a, a < length h -> p <> PHeap a -> nth_error h' a = nth_error h a) ->
  (forall a, p = PHeap a -> nth_error h' a = Some None) -> frame A h p h' (PHeap (length h)).
Proof.
  intros h h' p L SAME DEAD. split; [lia|]. split; [exact SAME|]. split; [|intros a X; injection X as <-; auto].
  intros a b E. assert (a < S (length h)) by (rewrite <- L; apply nth_error_Some; congruence). destruct (Nat.eq_dec a (length h)) as [->|N]; auto. right. split; [lia|]. intros X. rewrite (DEAD a X) in E. discriminate.
Qed.
End Frame.

(** *** The specification's contents and capacities, as one list *)
Section Tie.
Variable A C : Type.
Variable d : C.
Definition tie (sw : list (option (list (option A) * C)%type)) (w : list (option (list (option A)))) (cs : list C) : Prop :=
  w = map (option_map fst) sw /\ length cs = length sw /\ forall i s, nth_error sw i = Some (Some s) -> nth_error cs i = Some (snd s).
Lemma tie_get : forall sw w cs i c, tie sw w cs -> vget A w i = Some c -> exists cap, nth_error sw i = Some (Some (c, cap)) /\ nth i cs d = cap /\ vsize A w i = length c.
Proof.
  intros sw w cs i c (-> & L & N) G. unfold vsize. rewrite G. unfold vget in G. rewrite nth_error_map in G. destruct (nth_error sw i) as [[[c' cap]|]|] eqn:E; try discriminate. cbn in G. injection G as ->.
  exists cap. split; auto. split; auto. apply nth_error_nth. apply (N i _ E).
Qed.
Lemma tie_app : forall sw w cs c cap, tie sw w cs -> tie (sw ++ [Some (c, cap)]) (w ++ [Some c]) (cs ++ [cap]).
Proof.
  intros sw w cs c cap (-> & L & N). split; [rewrite map_app; auto|]. split; [rewrite !app_length; cbn; lia|]. intros i s E. destruct (Nat.lt_ge_cases i (length sw)) as [H|H].
  - rewrite nth_error_app1 in E by auto. rewrite nth_error_app1 by lia. auto.
  - rewrite nth_error_app2 in E by auto. rewrite nth_error_app2 by lia. rewrite L. destruct (i - length sw) as [|m]; [injection E as <-; auto|destruct m; discriminate].
Qed.
Lemma map_upd : forall X Y (f : X -> Y) l i x, map f (upd l i x) = upd (map f l) i (f x).
Proof. induction l as [|y l IH]; intros [|i] x; cbn; f_equal; auto. Qed.
Lemma tie_upd : forall sw w cs i c cap cs', tie sw w cs -> length cs' = length cs -> (forall j, j <> i -> nth_error cs' j = nth_error cs j) -> nth_error cs' i = Some cap -> tie (upd sw i (Some (c, cap))) (upd w i (Some c)) cs'.
Proof.
  intros sw w cs i c cap cs' (-> & L & N) L' O I. split; [rewrite map_upd; auto|]. split; [rewrite length_upd; lia|]. intros j s E. destruct (Nat.eq_dec j i) as [->|NE].
  - rewrite nth_error_upd_eq in E by (rewrite <- L, <- L'; apply nth_error_Some; congruence). injection E as <-. auto.
  - rewrite nth_error_upd_neq in E by auto. rewrite O; auto.
Qed.
Lemma tie_upd1 : forall sw w cs i c c0 cap0 cap, tie sw w cs -> nth_error sw i = Some (Some (c0, cap0)) -> tie (upd sw i (Some (c, cap))) (upd w i (Some c)) (upd cs i cap).
Proof.
  intros sw w cs i c c0 cap0 cap T E. eapply tie_upd; eauto; [apply length_upd|intros; apply nth_error_upd_neq; auto|]. apply nth_error_upd_eq. destruct T as (_ & L & N). rewrite L. apply nth_error_Some. congruence.
Qed.
Lemma tie_upd0 : forall sw w cs i c c0 cap, tie sw w cs -> nth_error sw i = Some (Some (c0, cap)) -> tie (upd sw i (Some (c, cap))) (upd w i (Some c)) cs.
Proof. intros sw w cs i c c0 cap T E. eapply tie_upd; eauto. destruct T as (_ & L & N). apply (N i _ E). Qed.

End Tie.

Section Fast.
Variable A : Type.
Variable MAX : nat.
Hypothesis MAX_pos : 0 < MAX.
Notation heap := (list (option (list (option A)))).
Notation S' := (list (option A) * nat)%type.

Definition fok (h : heap) (o : sq A) (s : S') : Prop :=
  q_size A o = length (fst s) /\ q_cap A o = snd s /\ length (fst s) <= snd s /\ length (q_stack A o) = MAX /\
  ((snd s = MAX /\ q_ptr A o = PStack) \/ (MAX < snd s /\ exists a, q_ptr A o = PHeap a)) /\
  exists b, blk A h o = Some b /\ length b = snd s /\ agree A (fst s) b.

Lemma fok_live : forall h o s a, fok h o s -> q_ptr A o = PHeap a -> exists b, nth_error h a = Some (Some b).
Proof. intros h o s a (_ & _ & _ & _ & _ & b & B & _) P. exists b. eapply blk_heap; eauto. Qed.
Lemma fok_frame : forall h h' o s, fok h o s -> (forall a, q_ptr A o = PHeap a -> nth_error h' a = nth_error h a) -> fok h' o s.
Proof.
  intros h h' o s (A1 & A2 & A3 & A4 & A5 & b & B & B') H. unfold fok. do 5 (split; [auto|]). exists b. split; [|auto]. unfold blk in *. destruct (q_ptr A o); auto. rewrite H; auto.
Qed.
Lemma fok_cap : forall h o els cap, fok h o (els, cap) -> MAX <= cap.
Proof. intros h o els cap (_ & _ & _ & _ & [[H _]|[H _]] & _); cbn in *; lia. Qed.

(** The pointer a sequence with capacity [cap] is constructed with. *)
Lemma sized_blk : forall h n, exists h' o' b, fs_sized A MAX h n = Ret (h', o') /\ frame A h PNull h' (q_ptr A o') /\ q_size A o' = n /\ q_cap A o' = Nat.max MAX n /\ length (q_stack A o') = MAX /\
  ((Nat.max MAX n = MAX /\ q_ptr A o' = PStack) \/ (MAX < Nat.max MAX n /\ exists a, q_ptr A o' = PHeap a)) /\ blk A h' o' = Some b /\ length b = Nat.max MAX n.
Proof.
  intros h n. unfold fs_sized, new_block. destruct (MAX <? n) eqn:E.
  - apply Nat.ltb_lt in E. eexists; eexists; eexists. split; [reflexivity|]. cbn [q_ptr q_size q_cap q_stack]. split; [apply frame_new; discriminate|]. split; auto. split; [lia|]. split; [apply repeat_length|]. split; [right; split; [lia|eauto]|].
    split; [unfold blk; cbn [q_ptr]; rewrite nth_error_app2, Nat.sub_diag by lia; reflexivity|rewrite repeat_length; lia].
  - apply Nat.ltb_ge in E. eexists; eexists; eexists. split; [reflexivity|]. cbn [q_ptr q_size q_cap q_stack]. split; [apply frame_refl_stack; discriminate|]. split; auto. split; [lia|]. split; [apply repeat_length|]. split; [left; split; [lia|auto]|].
    split; [reflexivity|]. cbn [q_stack]. rewrite repeat_length. lia.
Qed.
Lemma sized_ok : forall h n, exists h' o', fs_sized A MAX h n = Ret (h', o') /\ frame A h PNull h' (q_ptr A o') /\ fok h' o' (repeat None n, Nat.max MAX n).
Proof.
  intros h n. destruct (sized_blk h n) as (h' & o' & b & E & F & P1 & P2 & P3 & P4 & P5 & P6). exists h', o'. split; auto. split; auto. unfold fok. cbn [fst snd]. rewrite repeat_length.
  do 2 (split; [auto|]). split; [lia|]. do 2 (split; [auto|]). exists b. split; auto. split; auto. apply agree_none.
Qed.
Lemma default_ok : forall h, exists h' o', fs_default A MAX h = Ret (h', o') /\ frame A h PNull h' (q_ptr A o') /\ fok h' o' ([], MAX).
Proof.
  intros h. eexists; eexists. split; [reflexivity|]. cbn [q_ptr]. split; [apply frame_refl_stack; discriminate|]. unfold fok. cbn [fst snd q_size q_cap q_stack q_ptr length]. rewrite repeat_length.
  do 2 (split; [auto|]). split; [lia|]. split; auto. split; [left; auto|]. exists (repeat None MAX). split; [reflexivity|]. split; [apply repeat_length|]. intros [|k] v E; discriminate.
Qed.
(** Writing into the own block keeps everything but the contents. *)
Lemma fok_put : forall h o els cap b els', fok h o (els, cap) -> length b = cap -> length els' = length els -> agree A els' b ->
  fok (fst (put A h o b)) (snd (put A h o b)) (els', cap) /\ frame A h (q_ptr A o) (fst (put A h o b)) (q_ptr A (snd (put A h o b))).
Proof.
  intros h o els cap b els' (A1 & A2 & A3 & A4 & A5 & c & B & LB & G) L LE G'. cbn [fst snd] in *. split; [|rewrite put_ptr; apply frame_put].
  unfold fok. cbn [fst snd]. destruct (put_size A h o b) as [-> ->]. rewrite put_ptr, LE. do 3 (split; [auto|]). split; [rewrite (put_stack _ _ _ _ c); auto; lia|]. split; auto.
  exists b. split; [eapply blk_put; eauto|auto].
Qed.
Lemma filled_ok : forall h n v, exists h' o', fs_filled A MAX h n v = Ret (h', o') /\ frame A h PNull h' (q_ptr A o') /\ fok h' o' (repeat (Some v) n, Nat.max MAX n).
Proof.
  intros h n v. unfold fs_filled. destruct (sized_ok h n) as (h1 & o1 & -> & F & OK). cbn [bind]. pose proof OK as (_ & _ & _ & _ & _ & b & B & LB & _). cbn [fst snd] in LB.
  rewrite (put_range_ok A _ _ _ b); [|auto|rewrite repeat_length; lia].
  destruct (fok_put h1 o1 _ _ (map Some (repeat v n) ++ skipn (length (repeat v n)) b) (repeat (Some v) n) OK) as [OK' F'].
  - rewrite app_length, map_length, skipn_length, repeat_length. lia.
  - rewrite !repeat_length. auto.
  - rewrite repeat_map. apply agree_range.
  - destruct (put A h1 o1 (map Some (repeat v n) ++ skipn (length (repeat v n)) b)) as [h' o']. cbn [fst snd] in *. exists h', o'. split; auto. split; auto. eapply frame_trans; eauto.
Qed.
Lemma apart_new : forall h h' o s p, fok h o s -> frame A h PNull h' p -> apart p (q_ptr A o) /\ blk A h' o = blk A h o.
Proof.
  intros h h' o s p OK (F1 & F2 & F3 & F4). split.
  - intros a P1 P2. destruct (F4 a P1) as [?|X]; [discriminate|]. destruct (fok_live h o s a OK P2) as [b E]. assert (a < length h) by (apply nth_error_Some; congruence). lia.
  - unfold blk. destruct (q_ptr A o) as [| | |a] eqn:P; auto. rewrite F2; auto; [|discriminate]. destruct (fok_live h o s a OK P) as [b E]. apply nth_error_Some. congruence.
Qed.
Lemma copy_ok : forall h o els cap, fok h o (els, cap) -> cap = Nat.max MAX (length els) -> exists h' o', fs_copy A MAX h o = Ret (h', o') /\ frame A h PNull h' (q_ptr A o') /\ fok h' o' (els, cap).
Proof.
  intros h o els cap OK C. pose proof OK as (A1 & A2 & A3 & A4 & A5 & b & B & LB & G). cbn [fst snd] in *.
  destruct (sized_blk h (length els)) as (h1 & o1 & b1 & E1 & F1 & P1 & P2 & P3 & P4 & P5 & P6).
  assert (EQ : fs_copy A MAX h o = copy_in A h1 o o1 (length els)).
  { unfold fs_copy. unfold fs_sized, new_block in E1. rewrite A1, A2, C. unfold new_block. destruct (MAX <? length els) eqn:E; injection E1 as <- <-; cbn.
    - apply Nat.ltb_lt in E. f_equal. f_equal. lia.
    - apply Nat.ltb_ge in E. f_equal. f_equal. lia. }
  rewrite EQ. destruct (apart_new h h1 o (els, cap) (q_ptr A o1) OK F1) as [AP BS]. rewrite (copy_in_ok A h1 o o1 b b1); [|congruence|auto|lia|lia|auto].
  assert (OK1 : fok h1 o1 (repeat None (length els), cap)). { unfold fok. cbn [fst snd]. rewrite repeat_length, C. do 2 (split; [auto|]). split; [lia|]. do 2 (split; [auto|]). exists b1. split; auto. split; auto. apply agree_none. }
  destruct (fok_put h1 o1 _ _ (firstn (length els) b ++ skipn (length els) b1) els OK1) as [OK' F'].
  - rewrite app_length, firstn_length, skipn_length. lia.
  - rewrite repeat_length. auto.
  - apply agree_copy; auto. lia.
  - destruct (put A h1 o1 (firstn (length els) b ++ skipn (length els) b1)) as [h' o']. cbn [fst snd] in *. exists h', o'. split; auto. split; auto. eapply frame_trans; eauto.
Qed.
Lemma destroy_ok : forall h o s, fok h o s -> exists h', fs_destroy A MAX h o = Ret h' /\ frame A h (q_ptr A o) h' PNull.
Proof.
  intros h o [els cap] OK. pose proof OK as (A1 & A2 & A3 & A4 & A5 & b & B & LB & G). cbn [fst snd] in *. unfold fs_destroy. rewrite A2. destruct A5 as [[-> P]|[LT [a P]]].
  - rewrite Nat.ltb_irrefl. exists h. split; auto. rewrite P. apply frame_refl_stack; discriminate.
  - apply Nat.ltb_lt in LT. rewrite LT, P. apply (blk_heap A h o a b P) in B. rewrite (delete_ok A h a b B). eexists. split; [reflexivity|]. eapply frame_delete; eauto. discriminate.
Qed.
Lemma grow_ok : forall h o els cap n, fok h o (els, cap) -> cap < n -> exists h' o', fs_grow A MAX h o n = Ret (h', o') /\ frame A h (q_ptr A o) h' (q_ptr A o') /\ fok h' o' (els, n).
Proof.
  intros h o els cap n OK LT. pose proof (fok_cap h o els cap OK) as CM. pose proof OK as (A1 & A2 & A3 & A4 & A5 & b & B & LB & G). cbn [fst snd] in *.
  unfold fs_grow, new_block. rewrite A1, A2. set (h1 := h ++ [Some (repeat None n)]).
  assert (L1 : length h1 = S (length h)) by (unfold h1; rewrite app_length; cbn; lia).
  assert (N1 : nth_error h1 (length h) = Some (Some (repeat None n))) by (unfold h1; rewrite nth_error_app2, Nat.sub_diag by lia; reflexivity).
  assert (PN : forall a, q_ptr A o = PHeap a -> a < length h /\ nth_error h a = Some (Some b)). { intros a P. apply (blk_heap A h o a b P) in B. split; auto. apply nth_error_Some. congruence. }
  assert (B1 : blk A h1 o = Some b). { unfold blk in *. destruct (q_ptr A o) as [| | |a] eqn:P; auto. unfold h1. rewrite nth_error_app1; auto. apply (PN a eq_refl). }
  rewrite (copy_to_ok A h1 o (length els) (length h) b (repeat None n)); [|auto|auto|lia|rewrite repeat_length; lia|intros P; destruct (PN _ P); lia].
  cbn [bind]. set (nb := firstn (length els) b ++ skipn (length els) (repeat None n)).
  assert (LN : length nb = n) by (unfold nb; rewrite app_length, firstn_length, skipn_length, repeat_length; lia).
  assert (GN : agree A els nb) by (apply agree_copy; auto; lia).
  assert (X : exists h3, (if MAX <? cap then delete_block A (upd h1 (length h) (Some nb)) (q_ptr A o) else Ret (upd h1 (length h) (Some nb))) = Ret h3 /\ length h3 = S (length h) /\ nth_error h3 (length h) = Some (Some nb) /\
     (forall a, a < length h -> q_ptr A o <> PHeap a -> nth_error h3 a = nth_error h a) /\ (forall a, q_ptr A o = PHeap a -> nth_error h3 a = Some None)).
  { destruct A5 as [[-> P]|[LT' [a P]]].
    - rewrite Nat.ltb_irrefl. eexists. split; [reflexivity|]. rewrite length_upd. split; auto. split; [apply nth_error_upd_eq; lia|]. split; [|intros a Q; congruence].
      intros a Ha _. rewrite nth_error_upd_neq by lia. unfold h1. apply nth_error_app1. auto.
    - apply Nat.ltb_lt in LT'. rewrite LT'. destruct (PN a P) as [Ha EA]. rewrite P. rewrite (delete_ok A _ a b) by (rewrite nth_error_upd_neq by lia; unfold h1; rewrite nth_error_app1; auto).
      eexists. split; [reflexivity|]. rewrite !length_upd. split; auto. split; [rewrite nth_error_upd_neq by lia; apply nth_error_upd_eq; lia|]. split.
      + intros a' Ha' N. rewrite nth_error_upd_neq by congruence. rewrite nth_error_upd_neq by lia. unfold h1. apply nth_error_app1. auto.
      + intros a' Q. injection Q as <-. apply nth_error_upd_eq. rewrite length_upd. lia. }
  destruct X as (h3 & -> & L3 & N3 & SAME & DEAD). cbn [bind]. eexists; eexists. split; [reflexivity|]. cbn [q_ptr]. split; [apply frame_replace; auto|].
  unfold fok. cbn [fst snd q_size q_cap q_stack q_ptr]. do 2 (split; [auto|]). split; [lia|]. split; auto. split; [right; split; [lia|eauto]|]. exists nb. split; auto. unfold blk. cbn [q_ptr]. rewrite N3. auto.
Qed.
Lemma reserve_ok : forall h o els cap n, fok h o (els, cap) -> exists h' o', fs_reserve A MAX h o n = Ret (h', o') /\ frame A h (q_ptr A o) h' (q_ptr A o') /\ fok h' o' (els, Nat.max cap n).
Proof.
  intros h o els cap n OK. unfold fs_reserve. pose proof OK as (_ & A2 & _). cbn [snd] in A2. rewrite A2. destruct (cap <? n) eqn:E.
  - apply Nat.ltb_lt in E. replace (Nat.max cap n) with n by lia. eapply grow_ok; eauto.
  - apply Nat.ltb_ge in E. replace (Nat.max cap n) with cap by lia. exists h, o. split; auto. split; auto. apply frame_same.
Qed.
Lemma resize_ok : forall h o els cap n, fok h o (els, cap) -> exists h' o', fs_resize A MAX h o n = Ret (h', o') /\ frame A h (q_ptr A o) h' (q_ptr A o') /\ fok h' o' (resized A els n, Nat.max cap n).
Proof.
  intros h o els cap n OK. unfold fs_resize. destruct (reserve_ok h o els cap n OK) as (h1 & o1 & -> & F & (A1 & A2 & A3 & A4 & A5 & b & B & LB & G)). cbn [bind fst snd] in *.
  eexists; eexists. split; [reflexivity|]. cbn [q_ptr]. split; auto. unfold fok. cbn [fst snd q_size q_cap q_stack q_ptr]. rewrite length_resized. do 2 (split; [auto|]). split; [lia|]. do 2 (split; [auto|]).
  exists b. split; auto. split; auto. apply agree_resized. auto.
Qed.
Lemma range_ok : forall h o els cap l, fok h o (els, cap) -> exists h' o', fs_range A MAX h o l = Ret (h', o') /\ frame A h (q_ptr A o) h' (q_ptr A o') /\ fok h' o' (map Some l, Nat.max cap (length l)).
Proof.
  intros h o els cap l OK. unfold fs_range. destruct (resize_ok h o els cap (length l) OK) as (h1 & o1 & -> & F & OK1). cbn [bind]. pose proof OK1 as (_ & _ & _ & _ & _ & b & B & LB & _). cbn [fst snd] in LB.
  rewrite (put_range_ok A l h1 o1 b); [|auto|lia]. destruct (fok_put h1 o1 _ _ (map Some l ++ skipn (length l) b) (map Some l) OK1) as [OK' F'].
  - rewrite app_length, map_length, skipn_length. lia.
  - rewrite length_resized, map_length. auto.
  - apply agree_range.
  - destruct (put A h1 o1 (map Some l ++ skipn (length l) b)) as [h' o']. cbn [fst snd] in *. exists h', o'. split; auto. split; auto. eapply frame_trans; eauto.
Qed.
Lemma clear_ok : forall h o s, fok h o s -> exists h' o', fs_clear A MAX h o = Ret (h', o') /\ frame A h (q_ptr A o) h' (q_ptr A o') /\ fok h' o' ([], MAX).
Proof.
  intros h o s OK. destruct (destroy_ok h o s OK) as (h' & E & F). unfold fs_destroy in E. unfold fs_clear. rewrite E. cbn [bind]. eexists; eexists. split; [reflexivity|]. cbn [q_ptr]. split.
  - eapply frame_trans; [exact F|]. apply frame_refl_stack; discriminate.
  - destruct OK as (_ & _ & _ & L & _). unfold fok. cbn [fst snd q_size q_cap q_stack q_ptr length]. do 2 (split; [auto|]). split; [lia|]. split; auto. split; [left; auto|]. exists (q_stack A o). split; [reflexivity|]. split; auto. intros [|k] v X; discriminate.
Qed.
Lemma set_ok : forall h o els cap k v, fok h o (els, cap) -> k < length els -> exists h' o', set_ A h o k v = Ret (h', o') /\ frame A h (q_ptr A o) h' (q_ptr A o') /\ fok h' o' (upd els k (Some v), cap).
Proof.
  intros h o els cap k v OK Hk. pose proof OK as (_ & _ & A3 & _ & _ & b & B & LB & G). cbn [fst snd] in *. unfold set_. rewrite (stc_blk A h o b) by (auto; lia).
  destruct (fok_put h o _ _ (upd b k (Some v)) (upd els k (Some v)) OK) as [OK' F'].
  - rewrite length_upd. auto.
  - apply length_upd.
  - apply agree_set; auto. lia.
  - destruct (put A h o (upd b k (Some v))) as [h' o']. cbn [fst snd] in *. exists h', o'. auto.
Qed.
Lemma push_ok : forall h o els cap v, fok h o (els, cap) -> exists h' o', fs_push A MAX h o v = Ret (h', o') /\ frame A h (q_ptr A o) h' (q_ptr A o') /\
  fok h' o' (els ++ [Some v], if cap =? length els then 2 * cap else cap).
Proof.
  intros h o els cap v OK. pose proof (fok_cap h o els cap OK) as CM. pose proof OK as (A1 & A2 & A3 & _). cbn [fst snd] in *. unfold fs_push. rewrite A1, A2.
  assert (X : exists h1 o1 cap1, (if cap =? length els then fs_grow A MAX h o (cap * 2) else Ret (h, o)) = Ret (h1, o1) /\ frame A h (q_ptr A o) h1 (q_ptr A o1) /\ fok h1 o1 (els, cap1) /\ cap1 = (if cap =? length els then 2 * cap else cap) /\ length els < cap1).
  { destruct (cap =? length els) eqn:E.
    - apply Nat.eqb_eq in E. destruct (grow_ok h o els cap (cap * 2) OK ltac:(lia)) as (h1 & o1 & E1 & F1 & OK1). exists h1, o1, (cap * 2). do 3 (split; [auto|]). lia.
    - apply Nat.eqb_neq in E. exists h, o, cap. split; auto. split; [apply frame_same|]. split; auto. split; auto. lia. }
  destruct X as (h1 & o1 & cap1 & -> & F1 & OK1 & <- & LT). cbn [bind]. pose proof OK1 as (B1 & B2 & B3 & B4 & B5 & b & B & LB & G). cbn [fst snd] in *. rewrite B1, (stc_blk A h1 o1 b) by (auto; lia).
  destruct (put A h1 o1 (upd b (length els) (Some v))) as [h' o'] eqn:EP. cbn [bind]. pose proof (put_size A h1 o1 (upd b (length els) (Some v))) as [S1 S2]. pose proof (put_ptr A h1 o1 (upd b (length els) (Some v))) as PP.
  pose proof (put_stack A h1 o1 (upd b (length els) (Some v)) b B (length_upd _ _ _ _)) as PS. pose proof (blk_put A h1 o1 b (upd b (length els) (Some v)) B) as PB. pose proof (frame_put A h1 o1 (upd b (length els) (Some v))) as PF. rewrite EP in *. cbn [fst snd] in *.
  eexists; eexists. split; [reflexivity|]. cbn [q_ptr]. split; [rewrite PP; eapply frame_trans; eauto|]. unfold fok. cbn [fst snd q_size q_cap q_stack q_ptr]. rewrite app_length, S1, S2, PP, PS. cbn [length]. split; [lia|]. split; auto. split; [lia|]. do 2 (split; [auto|]).
  exists (upd b (length els) (Some v)). split; [unfold blk in *; rewrite PP in PB; cbn [q_ptr q_stack]; auto|]. split; [rewrite length_upd; auto|]. apply agree_push; auto. lia.
Qed.
Lemma assign_ok : forall h o els cap other els' cap', fok h o (els, cap) -> fok h other (els', cap') -> apart (q_ptr A o) (q_ptr A other) -> cap = MAX \/ (MAX < length els /\ MAX < length els') ->
  exists h' o', fs_assign A MAX h o other = Ret (h', o') /\ frame A h (q_ptr A o) h' (q_ptr A o') /\ fok h' o' (els', if MAX <? length els' then length els' else cap).
Proof.
  intros h o els cap other els' cap' OK OK' AP LEG. pose proof OK as (A1 & A2 & A3 & A4 & A5 & b & B & LB & G). pose proof OK' as (B1 & B2 & B3 & B4 & B5 & c & C & LC & GC). cbn [fst snd] in *. unfold fs_assign. rewrite A1, B1.
  destruct (MAX <? length els') eqn:E.
  - apply Nat.ltb_lt in E.
    assert (X : exists h1, (if MAX <? length els then delete_block A h (q_ptr A o) else Ret h) = Ret h1 /\ length h1 = length h /\ (forall a, q_ptr A o <> PHeap a -> nth_error h1 a = nth_error h a) /\ (forall a, q_ptr A o = PHeap a -> nth_error h1 a = Some None)).
    { destruct (MAX <? length els) eqn:E1.
      - apply Nat.ltb_lt in E1. destruct A5 as [[-> P]|[LT [a P]]]; [lia|]. apply (blk_heap A h o a b P) in B. rewrite P, (delete_ok A h a b B). eexists. split; [reflexivity|]. split; [apply length_upd|]. split.
        + intros a' N. apply nth_error_upd_neq. congruence.
        + intros a' Q. injection Q as <-. apply nth_error_upd_eq. apply nth_error_Some. congruence.
      - apply Nat.ltb_ge in E1. exists h. split; auto. split; auto. split; auto. intros a P. destruct A5 as [[_ Q]|[LT _]]; [congruence|lia]. }
    destruct X as (h1 & -> & L1 & SAME & DEAD). cbn [bind]. unfold new_block. rewrite L1. set (h2 := h1 ++ [Some (repeat None (length els'))]).
    assert (N2 : nth_error h2 (length h) = Some (Some (repeat None (length els')))) by (unfold h2; rewrite nth_error_app2 by lia; rewrite L1, Nat.sub_diag; reflexivity).
    assert (CB : blk A h2 other = Some c /\ q_ptr A other <> PHeap (length h)).
    { unfold blk in C |- *. destruct (q_ptr A other) as [| | |a'] eqn:P; try discriminate; [split; [auto|discriminate]|]. assert (a' < length h). { apply nth_error_Some. intros X. rewrite X in C. discriminate. }
      split; [|intros X; injection X; lia]. unfold h2. rewrite nth_error_app1 by lia. rewrite SAME; auto. intros Q. apply (AP a'); auto. }
    destruct CB as [CB CN]. set (o2 := mkSq A (length els') (length els') (q_stack A o) (PHeap (length h))).
    rewrite (copy_in_ok A h2 other o2 c (repeat None (length els'))); [|auto|apply (blk_heap A h2 o2 (length h)); auto|lia|rewrite repeat_length; lia|intros a P1 P2; cbn in P1; congruence].
    unfold put. cbn [q_ptr o2]. eexists; eexists. split; [reflexivity|]. cbn [q_ptr]. set (nb := firstn (length els') c ++ skipn (length els') (repeat None (length els'))).
    assert (L2 : length h2 = S (length h)) by (unfold h2; rewrite app_length; cbn; lia). split.
    + apply frame_replace.
      * rewrite length_upd. auto.
      * intros a Ha N. rewrite nth_error_upd_neq by lia. unfold h2. rewrite nth_error_app1 by lia. apply SAME. auto.
      * intros a P. specialize (DEAD a P). rewrite nth_error_upd_neq. -- unfold h2. rewrite nth_error_app1; auto. apply nth_error_Some. congruence. -- assert (a < length h1) by (apply nth_error_Some; congruence). lia.
    + unfold fok. subst o2. cbn [fst snd q_size q_cap q_stack q_ptr]. do 2 (split; [auto|]). split; [lia|]. split; [auto|]. split; [right; split; [lia|eauto]|]. exists nb. split; [unfold blk; cbn [q_ptr]; rewrite nth_error_upd_eq by lia; auto|]. split.
      * unfold nb. rewrite app_length, firstn_length, skipn_length, repeat_length. lia.
      * apply agree_copy; auto. lia.
  - apply Nat.ltb_ge in E. destruct LEG as [->|[_ X]]; [|lia]. destruct A5 as [[_ P]|[X _]]; [|lia]. set (o2 := mkSq A (length els') (q_cap A o) (q_stack A o) PStack).
    rewrite (copy_in_ok A h other o2 c (q_stack A o)); [|auto|reflexivity|lia|lia|intros a P1; discriminate]. unfold put. cbn [q_ptr o2]. eexists; eexists. split; [reflexivity|]. cbn [q_ptr q_size q_cap q_stack]. split; [rewrite P; apply frame_same|].
    unfold fok. cbn [fst snd q_size q_cap q_stack q_ptr]. do 2 (split; [auto|]). split; [lia|]. assert (LN : length (firstn (length els') c ++ skipn (length els') (q_stack A o)) = MAX) by (rewrite app_length, firstn_length, skipn_length; lia). split; auto. split; [left; auto|].
    eexists. split; [reflexivity|]. cbn [q_stack]. split; auto. apply agree_copy; auto. lia.
Qed.

(** *** Histories *)
Lemma fast_run : forall ops w cs, fast_history A MAX ops w cs -> exists st sw, foldM (fs_step A MAX) ops ([], []) = Ret st /\ winv A S' fok st sw /\ tie A nat sw w cs.
Proof.
  intros ops w cs H. induction H as [|ops w cs p w' H IH V LEG].
  - exists ([], []), []. split; auto. split; [apply winv_init|]. split; auto. split; auto. intros [|i] s E; discriminate.
  - destruct IH as ([h objs] & sw & R & INV & T). rewrite foldM_app, R. cbn [bind foldM].
    assert (DONE : forall st, fs_step A MAX (h, objs) p = Ret st -> (exists sw', winv A S' fok st sw' /\ tie A nat sw' w' (fast_caps A MAX w cs p)) ->
      exists st0 sw', (w0 <- fs_step A MAX (h, objs) p ;; Ret w0) = Ret st0 /\ winv A S' fok st0 sw' /\ tie A nat sw' w' (fast_caps A MAX w cs p)).
    { intros st E (sw' & W & T'). exists st, sw'. rewrite E. auto. }
    assert (MK : forall f s', (exists h' o', f h = Ret (h', o') /\ frame A h PNull h' (q_ptr A o') /\ fok h' o' s') -> exists st, make A (h, objs) f = Ret st /\ winv A S' fok st (sw ++ [Some s'])).
    { intros f s' (h' & o' & E & F & OK). unfold make. cbn [fst snd]. rewrite E. cbn [bind]. eexists. split; [reflexivity|]. eapply winv_make; eauto using fok_live, fok_frame. }
    assert (CH : forall i c f s', vget A w i = Some c -> (forall o, nth_error objs i = Some (Some o) -> fok h o (c, nth i cs 0) -> exists h' o', f h o = Ret (h', o') /\ frame A h (q_ptr A o) h' (q_ptr A o') /\ fok h' o' s') ->
       exists st, change A (h, objs) i f = Ret st /\ winv A S' fok st (upd sw i (Some s'))).
    { intros i c f s' G Hf. destruct (tie_get A nat 0 _ _ _ _ _ T G) as (cap & ES & <- & _). destruct (winv_obj A S' fok (h, objs) sw i _ INV ES) as (o & EO & EN & OK). cbn [fst snd] in *. destruct (Hf o EN OK) as (h' & o' & E & F & OK').
      unfold change. rewrite EO. cbn [bind fst snd]. rewrite E. cbn [bind]. eexists. split; [reflexivity|]. eapply winv_change; eauto using fok_live, fok_frame. }
    cbn [v_step fast_caps fast_legal] in *. destruct p as [|n|n v|i|i j|i l|i v|i n|i n|i|i k v|i]; cbn [v_step fast_caps fast_legal fs_step] in *.
    + injection V as <-. destruct (MK (fs_default A MAX) _ (default_ok h)) as (st & E & W). apply (DONE st E). eexists. split; eauto. apply tie_app. auto.
    + injection V as <-. destruct (MK (fun h => fs_sized A MAX h n) _ (sized_ok h n)) as (st & E & W). apply (DONE st E). eexists. split; eauto. apply tie_app. auto.
    + injection V as <-. destruct (MK (fun h => fs_filled A MAX h n v) _ (filled_ok h n v)) as (st & E & W). apply (DONE st E). eexists. split; eauto. apply tie_app. auto.
    + destruct (vget A w i) as [c|] eqn:G; [|discriminate]. injection V as <-. destruct (tie_get A nat 0 _ _ _ _ _ T G) as (cap & ES & NC & VS). destruct (winv_obj A S' fok (h, objs) sw i _ INV ES) as (o & EO & EN & OK).
      rewrite EO in DONE |- *. cbn [bind fst] in *. rewrite VS, NC in LEG. destruct (MK (fun h => fs_copy A MAX h o) _ (copy_ok h o c cap OK LEG)) as (st & E & W). apply (DONE st E). eexists. split; eauto. rewrite NC. apply tie_app. auto.
    + destruct (vget A w j) as [cj|] eqn:GJ; [|discriminate]. unfold on in V. destruct (vget A w i) as [ci|] eqn:GI; [|discriminate]. injection V as <-.
      destruct (tie_get A nat 0 _ _ _ _ _ T GJ) as (capj & ESJ & NCJ & VSJ). destruct (winv_obj A S' fok (h, objs) sw j _ INV ESJ) as (oj & EOJ & ENJ & OKJ). destruct (tie_get A nat 0 _ _ _ _ _ T GI) as (capi & ESI & NCI & VSI). cbn [snd fst] in *.
      rewrite EOJ in DONE |- *. cbn [bind] in *. rewrite VSI, VSJ, NCI in *. destruct (Nat.eq_dec i j) as [->|NE].
      * rewrite Nat.eqb_refl in *. cbn [negb andb]. assert (cj = ci) by congruence. subst cj. edestruct (CH j ci (fun h o => Ret (h, o)) (ci, capj) GJ) as (st & E & W).
        { intros o _ OK. exists h, o. split; auto. split; [apply frame_same|]. rewrite NCJ in OK. auto. }
        apply (DONE st E). eexists. split; eauto. eapply tie_upd0; eauto.
      * destruct LEG as [X|LEG]; [contradiction|]. pose proof (proj2 (Nat.eqb_neq i j) NE) as X. rewrite X in *. cbn [negb andb].
        destruct (CH i ci (fun h o => fs_assign A MAX h o oj) (cj, if MAX <? length cj then length cj else capi) GI) as (st & E & W).
        { intros o EN OK. rewrite NCI in OK. eapply assign_ok; eauto. eapply (winv_apart A S' fok (h, objs) sw i j); eauto. }
        apply (DONE st E). eexists. split; eauto. destruct (MAX <? length cj); [eapply tie_upd1; eauto|eapply tie_upd0; eauto].
    + unfold on in V. destruct (vget A w i) as [c|] eqn:G; [|discriminate]. injection V as <-. destruct (tie_get A nat 0 _ _ _ _ _ T G) as (cap & ES & NC & VS).
      destruct (CH i c (fun h o => fs_range A MAX h o l) (map Some l, Nat.max (nth i cs 0) (length l)) G) as (st & E & W); [intros o _ OK; apply (range_ok h o c _ l OK)|]. apply (DONE st E). eexists. split; eauto. eapply tie_upd1; eauto.
    + unfold on in V. destruct (vget A w i) as [c|] eqn:G; [|discriminate]. injection V as <-. destruct (tie_get A nat 0 _ _ _ _ _ T G) as (cap & ES & NC & VS).
      destruct (CH i c (fun h o => fs_push A MAX h o v) (c ++ [Some v], if nth i cs 0 =? length c then 2 * nth i cs 0 else nth i cs 0) G) as (st & E & W); [intros o _ OK; apply (push_ok h o c _ v OK)|]. apply (DONE st E). eexists. split; eauto. rewrite VS, NC. destruct (cap =? length c); [eapply tie_upd1; eauto|eapply tie_upd0; eauto].
    + unfold on in V. destruct (vget A w i) as [c|] eqn:G; [|discriminate]. injection V as <-. destruct (tie_get A nat 0 _ _ _ _ _ T G) as (cap & ES & NC & VS).
      destruct (CH i c (fun h o => fs_resize A MAX h o n) (resized A c n, Nat.max (nth i cs 0) n) G) as (st & E & W); [intros o _ OK; apply (resize_ok h o c _ n OK)|]. apply (DONE st E). eexists. split; eauto. eapply tie_upd1; eauto.
    + unfold on in V. destruct (vget A w i) as [c|] eqn:G; [|discriminate]. injection V as <-. destruct (tie_get A nat 0 _ _ _ _ _ T G) as (cap & ES & NC & VS).
      destruct (CH i c (fun h o => fs_reserve A MAX h o n) (c, Nat.max (nth i cs 0) n) G) as (st & E & W); [intros o _ OK; apply (reserve_ok h o c _ n OK)|]. apply (DONE st E). eexists. split; eauto. eapply tie_upd1; eauto.
    + unfold on in V. destruct (vget A w i) as [c|] eqn:G; [|discriminate]. injection V as <-. destruct (tie_get A nat 0 _ _ _ _ _ T G) as (cap & ES & NC & VS).
      destruct (CH i c (fs_clear A MAX) ([], MAX) G) as (st & E & W); [intros o _ OK; apply (clear_ok h o _ OK)|]. apply (DONE st E). eexists. split; eauto. eapply tie_upd1; eauto.
    + unfold on in V. destruct (vget A w i) as [c|] eqn:G; [|discriminate]. destruct (k <? length c) eqn:K; [|discriminate]. apply Nat.ltb_lt in K. injection V as <-. destruct (tie_get A nat 0 _ _ _ _ _ T G) as (cap & ES & NC & VS).
      destruct (CH i c (fun h o => set_ A h o k v) (upd c k (Some v), nth i cs 0) G) as (st & E & W); [intros o _ OK; apply (set_ok h o c _ k v OK K)|]. apply (DONE st E). eexists. split; eauto. rewrite NC. eapply tie_upd0; eauto.
    + destruct (vget A w i) as [c|] eqn:G; [|discriminate]. injection V as <-. destruct (tie_get A nat 0 _ _ _ _ _ T G) as (cap & ES & NC & VS). destruct (winv_obj A S' fok (h, objs) sw i _ INV ES) as (o & EO & EN & OK). cbn [fst snd] in *.
      destruct (destroy_ok h o _ OK) as (h' & E & F). unfold finish in DONE |- *. rewrite EO in DONE |- *. cbn [bind fst snd] in *. rewrite E in DONE |- *. cbn [bind] in *. apply (DONE _ eq_refl). exists (upd sw i None). split.
      * eapply winv_finish; eauto using fok_live, fok_frame.
      * destruct T as (-> & L & N). split; [rewrite map_upd; auto|]. split; [rewrite length_upd; auto|]. intros j s X. destruct (Nat.eq_dec j i) as [->|NE]; [|rewrite nth_error_upd_neq in X by auto; auto].
        rewrite nth_error_upd_eq in X by (apply nth_error_Some; congruence). discriminate.
Qed.
Lemma fast_shows : forall st sw w cs, winv A S' fok st sw -> tie A nat sw w cs -> shows A st w.
Proof.
  intros st sw w cs INV T. pose proof INV as (F & _ & _). apply F2nth in F. destruct F as [L N]. pose proof T as (-> & _ & _). split; [rewrite map_length; auto|]. split; [|split].
  - intros i E. rewrite nth_error_map in E. destruct (nth_error sw i) as [[s|]|] eqn:ES; try discriminate. destruct (nth_error (snd st) i) as [oo|] eqn:EO.
    + pose proof (N i _ _ EO ES) as R. destruct oo; [destruct R|auto].
    + apply nth_error_None in EO. assert (i < length sw) by (apply nth_error_Some; congruence). lia.
  - intros i c E. rewrite nth_error_map in E. destruct (nth_error sw i) as [[[c' cap]|]|] eqn:ES; try discriminate. cbn in E. injection E as ->. destruct (winv_obj A S' fok st sw i _ INV ES) as (o & EO & EN & OK). exists o. split; auto.
    destruct OK as (A1 & A2 & A3 & A4 & A5 & b & B & LB & G). cbn [fst snd] in *. split; auto. intros k v E. unfold at_. rewrite (ld_blk A _ _ b k B). rewrite (rd_Ret _ _ _ _ (G k v E)). auto.
  - intros D. eapply winv_freed; eauto. intros i [c cap] E. apply (D i c). rewrite nth_error_map, E. auto.
Qed.
End Fast.
