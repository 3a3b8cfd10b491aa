(** BufferVector: every operation does what the specification says, and touches no other vector. *)
From Verif Require Import Base SequencesModel SequencesSpec SequencesProofs SequencesFast.
#[local] Arguments nth_error : simpl never.

Section Buffer.
Variable A : Type.
Notation heap := (list (option (list (option A)))).
Notation S' := (list (option A) * (nat * bool))%type.

Definition bok (h : heap) (o : sq A) (s : S') : Prop :=
  q_size A o = length (fst s) /\ q_cap A o = fst (snd s) /\ length (fst s) <= fst (snd s) /\
  ((fst (snd s) = 0 /\ q_ptr A o = if snd (snd s) then PNull else PUninit) \/
   (0 < fst (snd s) /\ snd (snd s) = true /\ exists a b, q_ptr A o = PHeap a /\ nth_error h a = Some (Some b) /\ length b = fst (snd s) /\ agree A (fst s) b)).

Lemma bok_live : forall h o s a, bok h o s -> q_ptr A o = PHeap a -> exists b, nth_error h a = Some (Some b).
Proof.
  intros h o s a (_ & _ & _ & [[_ P]|(_ & _ & a' & b & P & E & _)]) Q.
  - rewrite P in Q. destruct (snd (snd s)); discriminate.
  - exists b. congruence.
Qed.
Lemma bok_frame : forall h h' o s, bok h o s -> (forall a, q_ptr A o = PHeap a -> nth_error h' a = nth_error h a) -> bok h' o s.
Proof.
  intros h h' o s (A1 & A2 & A3 & A4) H. unfold bok. do 3 (split; [auto|]). destruct A4 as [X|(P1 & P2 & a & b & P & E & G)]; auto. right. split; auto. split; auto. exists a, b. split; auto. split; auto. rewrite H; auto.
Qed.
Lemma bok_blk : forall h o els cap i, bok h o (els, (cap, i)) -> 0 < cap -> exists a b, q_ptr A o = PHeap a /\ blk A h o = Some b /\ nth_error h a = Some (Some b) /\ length b = cap /\ agree A els b /\ i = true /\ a < length h.
Proof.
  intros h o els cap i (_ & _ & _ & [[X _]|(_ & P2 & a & b & P & E & L & G)]) H; cbn [fst snd] in *; [lia|]. exists a, b. split; auto. split; [apply (blk_heap A h o a b P); auto|]. do 4 (split; [auto|]). apply nth_error_Some. congruence.
Qed.
Lemma bnew : forall h o n els b, q_size A o = length els -> q_cap A o = n -> length els <= n -> 0 < n -> forall a, q_ptr A o = PHeap a -> nth_error h a = Some (Some b) -> length b = n -> agree A els b -> bok h o (els, (n, true)).
Proof. intros. unfold bok. cbn [fst snd]. do 3 (split; [auto|]). right. split; auto. split; auto. exists a, b. auto. Qed.

Lemma bdefault_ok : forall h, exists h' o', bv_default A h = Ret (h', o') /\ frame A h PNull h' (q_ptr A o') /\ bok h' o' ([], (0, true)).
Proof. intros h. eexists; eexists. split; [reflexivity|]. cbn [q_ptr]. split; [apply frame_same|]. unfold bok. cbn. auto 6. Qed.
Lemma bempty_ok : forall h, frame A h PNull h PUninit /\ bok h (mkSq A 0 0 [] PUninit) ([], (0, false)).
Proof. intros h. split; [apply frame_refl_stack; discriminate|]. unfold bok. cbn. auto 6. Qed.
Lemma bsized_ok : forall h n, exists h' o', bv_sized A h n = Ret (h', o') /\ frame A h PNull h' (q_ptr A o') /\ bok h' o' (repeat None n, (n, negb (n =? 0))).
Proof.
  intros h n. unfold bv_sized, new_block. destruct (n =? 0) eqn:E.
  - apply Nat.eqb_eq in E. subst n. exists h, (mkSq A 0 0 [] PUninit). split; auto. apply bempty_ok.
  - apply Nat.eqb_neq in E. eexists; eexists. split; [reflexivity|]. cbn [q_ptr negb]. split; [apply frame_new; discriminate|].
    apply (bnew _ _ n _ (repeat None n)) with (a := length h); cbn [q_size q_cap q_ptr]; rewrite ?repeat_length; auto; try lia; [|apply agree_none]. rewrite nth_error_app2, Nat.sub_diag; auto.
Qed.
Lemma bok_put : forall h o els cap i b els', bok h o (els, (cap, i)) -> 0 < cap -> length b = cap -> length els' = length els -> agree A els' b ->
  bok (fst (put A h o b)) (snd (put A h o b)) (els', (cap, i)) /\ frame A h (q_ptr A o) (fst (put A h o b)) (q_ptr A (snd (put A h o b))).
Proof.
  intros h o els cap i b els' OK H L LE G. destruct (bok_blk _ _ _ _ _ OK H) as (a & c & P & B & E & LC & G0 & -> & Ha). destruct OK as (A1 & A2 & A3 & _). cbn [fst snd] in *. split; [|rewrite put_ptr; apply frame_put].
  unfold put. rewrite P. cbn [fst snd]. apply (bnew _ _ cap _ b) with (a := a); rewrite ?LE; auto. apply nth_error_upd_eq. auto.
Qed.
Lemma bfilled_ok : forall h n v, n <> 0 -> exists h' o', bv_filled A h n v = Ret (h', o') /\ frame A h PNull h' (q_ptr A o') /\ bok h' o' (repeat (Some v) n, (n, true)).
Proof.
  intros h n v H. unfold bv_filled. destruct (bsized_ok h n) as (h1 & o1 & E1 & F1 & OK1). unfold bv_sized in E1. rewrite (proj2 (Nat.eqb_neq n 0) H) in E1, OK1. cbn [negb] in OK1. destruct (new_block A h n) as [h2 a]. injection E1 as -> <-. set (o1 := mkSq A n n [] (PHeap a)) in *.
  destruct (bok_blk _ _ _ _ _ OK1 ltac:(lia)) as (a' & b & P & B & E & LB & _). rewrite (put_range_ok A _ _ _ b); [|auto|rewrite repeat_length; lia].
  destruct (bok_put h1 o1 _ _ _ (map Some (repeat v n) ++ skipn (length (repeat v n)) b) (repeat (Some v) n) OK1 ltac:(lia)) as [OK' F'].
  - rewrite app_length, map_length, skipn_length, repeat_length. lia.
  - rewrite !repeat_length. auto.
  - rewrite repeat_map. apply agree_range.
  - destruct (put A h1 o1 (map Some (repeat v n) ++ skipn (length (repeat v n)) b)) as [h' o']. cbn [fst snd] in *. exists h', o'. split; auto. split; auto. eapply frame_trans; eauto.
Qed.
Lemma bcopy_ok : forall h o els cap i, bok h o (els, (cap, i)) -> exists h' o', bv_copy A h o = Ret (h', o') /\ frame A h PNull h' (q_ptr A o') /\ bok h' o' (els, (length els, negb (length els =? 0))).
Proof.
  intros h o els cap i OK. pose proof OK as (A1 & A2 & A3 & _). cbn [fst snd] in *. unfold bv_copy. rewrite A1. destruct (length els =? 0) eqn:E.
  - apply Nat.eqb_eq in E. rewrite E. destruct els; [|discriminate]. exists h, (mkSq A 0 0 [] PUninit). split; auto. apply bempty_ok.
  - apply Nat.eqb_neq in E. destruct (bok_blk _ _ _ _ _ OK ltac:(lia)) as (a & b & P & B & EA & LB & G & -> & Ha).
    destruct (bsized_ok h (length els)) as (h1 & o1 & E1 & F1 & OK1). unfold bv_sized in E1. rewrite (proj2 (Nat.eqb_neq _ 0) E) in E1, OK1. cbn [negb] in *. unfold new_block in *. injection E1 as <- <-. set (h1 := h ++ [Some (repeat None (length els))]) in *. set (o1 := mkSq A (length els) (length els) [] (PHeap (length h))) in *.
    destruct (bok_blk _ _ _ _ _ OK1 ltac:(lia)) as (a' & b1 & P1 & B1 & EA1 & LB1 & _).
    assert (BS : blk A h1 o = Some b). { apply (blk_heap A h1 o a b P). unfold h1. rewrite nth_error_app1; auto. }
    rewrite (copy_in_ok A h1 o o1 b b1); [|auto|auto|lia|lia|intros x Q1 Q2; cbn in Q1; injection Q1 as <-; rewrite P in Q2; injection Q2; lia].
    destruct (bok_put h1 o1 _ _ _ (firstn (length els) b ++ skipn (length els) b1) els OK1 ltac:(lia)) as [OK' F'].
    + rewrite app_length, firstn_length, skipn_length. lia.
    + rewrite repeat_length. auto.
    + apply agree_copy; auto. lia.
    + destruct (put A h1 o1 (firstn (length els) b ++ skipn (length els) b1)) as [h' o']. cbn [fst snd] in *. exists h', o'. split; auto. split; auto. eapply frame_trans; eauto.
Qed.
Lemma bdestroy_ok : forall h o s, bok h o s -> exists h', bv_destroy A h o = Ret h' /\ frame A h (q_ptr A o) h' PNull.
Proof.
  intros h o [els [cap i]] OK. pose proof OK as (A1 & A2 & A3 & A4). cbn [fst snd] in *. unfold bv_destroy. rewrite A2. destruct (cap =? 0) eqn:E.
  - apply Nat.eqb_eq in E. destruct A4 as [[_ P]|[X _]]; [|lia]. exists h. split; auto. rewrite P. apply frame_refl_stack; destruct i; discriminate.
  - apply Nat.eqb_neq in E. destruct (bok_blk _ _ _ _ _ OK ltac:(lia)) as (a & b & P & B & EA & LB & G & _ & Ha). rewrite P, (delete_ok A h a b EA). eexists. split; [reflexivity|]. eapply frame_delete; eauto. discriminate.
Qed.
Lemma bgrow_ok : forall h o els cap i n, bok h o (els, (cap, i)) -> cap < n -> length els <> 0 \/ cap = 0 -> exists h' o', bv_grow A h o n = Ret (h', o') /\ frame A h (q_ptr A o) h' (q_ptr A o') /\ bok h' o' (els, (n, true)).
Proof.
  intros h o els cap i n OK LT LEG. pose proof OK as (A1 & A2 & A3 & A4). cbn [fst snd] in *. unfold bv_grow, new_block. rewrite A1. destruct (length els =? 0) eqn:E.
  - apply Nat.eqb_eq in E. destruct LEG as [X| ->]; [lia|]. destruct A4 as [[_ P]|[X _]]; [|lia]. cbn [bind]. eexists; eexists. split; [reflexivity|]. cbn [q_ptr]. split; [apply frame_new; rewrite P; destruct i; discriminate|].
    destruct els; [|discriminate]. apply (bnew _ _ n _ (repeat None n)) with (a := length h); cbn [q_size q_cap q_ptr length]; rewrite ?repeat_length; auto; try lia; [rewrite nth_error_app2, Nat.sub_diag; auto|]. intros [|k] v X; discriminate.
  - apply Nat.eqb_neq in E. destruct (bok_blk _ _ _ _ _ OK ltac:(lia)) as (a & b & P & B & EA & LB & G & -> & Ha). set (h1 := h ++ [Some (repeat None n)]).
    assert (L1 : length h1 = S (length h)) by (unfold h1; rewrite app_length; cbn; lia).
    assert (N1 : nth_error h1 (length h) = Some (Some (repeat None n))) by (unfold h1; rewrite nth_error_app2, Nat.sub_diag by lia; reflexivity).
    assert (EA1 : nth_error h1 a = Some (Some b)) by (unfold h1; rewrite nth_error_app1; auto).
    rewrite (copy_to_ok A h1 o (length els) (length h) b (repeat None n)); [|apply (blk_heap A h1 o a b P); auto|auto|lia|rewrite repeat_length; lia|rewrite P; intros X; injection X; lia].
    cbn [bind]. set (nb := firstn (length els) b ++ skipn (length els) (repeat None n)). rewrite P, (delete_ok A _ a b) by (rewrite nth_error_upd_neq by lia; auto). cbn [bind]. eexists; eexists. split; [reflexivity|]. cbn [q_ptr]. split.
    + apply frame_replace.
      * rewrite !length_upd. auto.
      * intros a' Ha' N. rewrite nth_error_upd_neq by congruence. rewrite nth_error_upd_neq by lia. unfold h1. apply nth_error_app1. auto.
      * intros a' Q. injection Q as <-. apply nth_error_upd_eq. rewrite length_upd. lia.
    + apply (bnew _ _ n _ nb) with (a := length h); cbn [q_size q_cap q_ptr]; auto; try lia.
      * rewrite nth_error_upd_neq by lia. apply nth_error_upd_eq. lia.
      * unfold nb. rewrite app_length, firstn_length, skipn_length, repeat_length. lia.
      * apply agree_copy; auto. lia.
Qed.
Lemma bresize_ok : forall h o els cap i n, bok h o (els, (cap, i)) -> n <= cap \/ length els <> 0 \/ cap = 0 -> exists h' o', bv_resize A h o n = Ret (h', o') /\ frame A h (q_ptr A o) h' (q_ptr A o') /\
  bok h' o' (resized A els n, if cap <? n then (n, true) else (cap, i)).
Proof.
  intros h o els cap i n OK LEG. unfold bv_resize. pose proof OK as (_ & A2 & _). cbn [fst snd] in A2. rewrite A2.
  assert (X : exists h1 o1 c1, (if cap <? n then bv_grow A h o n else Ret (h, o)) = Ret (h1, o1) /\ frame A h (q_ptr A o) h1 (q_ptr A o1) /\ bok h1 o1 (els, c1) /\ c1 = (if cap <? n then (n, true) else (cap, i)) /\ n <= fst c1).
  { destruct (cap <? n) eqn:E.
    - apply Nat.ltb_lt in E. destruct (bgrow_ok h o els cap i n OK E) as (h1 & o1 & E1 & F1 & OK1); [lia|]. exists h1, o1, (n, true). auto.
    - apply Nat.ltb_ge in E. exists h, o, (cap, i). split; auto. split; [apply frame_same|]. auto. }
  destruct X as (h1 & o1 & [c1 i1] & -> & F1 & OK1 & <- & LE). cbn [bind]. eexists; eexists. split; [reflexivity|]. cbn [q_ptr]. split; auto.
  destruct OK1 as (B1 & B2 & B3 & B4). unfold bok. cbn [fst snd q_size q_cap q_ptr] in *. rewrite length_resized. do 3 (split; [auto|]). destruct B4 as [X|(P1 & P2 & a & b & P & E & L & G)]; auto. right. split; auto. split; auto. exists a, b. do 3 (split; [auto|]). apply agree_resized. auto.
Qed.
Lemma brange_ok : forall h o els cap i l, bok h o (els, (cap, i)) -> length l <= cap \/ length els <> 0 \/ cap = 0 -> exists h' o', bv_range A h o l = Ret (h', o') /\ frame A h (q_ptr A o) h' (q_ptr A o') /\
  bok h' o' (map Some l, if cap <? length l then (length l, true) else (cap, i)).
Proof.
  intros h o els cap i l OK LEG. unfold bv_range. destruct (bresize_ok h o els cap i (length l) OK LEG) as (h1 & o1 & -> & F & OK1). cbn [bind]. destruct l as [|v l].
  - cbn [length] in *. exists h1, o1. auto.
  - set (l' := v :: l) in *. destruct (if cap <? length l' then (length l', true) else (cap, i)) as [c1 i1] eqn:EC. assert (LE : length l' <= c1). { destruct (cap <? length l') eqn:X; injection EC as <- <-; auto. apply Nat.ltb_ge in X. auto. }
    assert (PL : 0 < length l') by (cbn; lia). destruct (bok_blk _ _ _ _ _ OK1 ltac:(lia)) as (a & b & P & B & EA & LB & G & -> & Ha).
    rewrite (put_range_ok A l' h1 o1 b); [|auto|lia]. destruct (bok_put h1 o1 _ _ _ (map Some l' ++ skipn (length l') b) (map Some l') OK1 ltac:(lia)) as [OK' F'].
    + rewrite app_length, map_length, skipn_length. lia.
    + rewrite length_resized, map_length. auto.
    + apply agree_range.
    + destruct (put A h1 o1 (map Some l' ++ skipn (length l') b)) as [h' o']. cbn [fst snd] in *. exists h', o'. split; auto. split; auto. eapply frame_trans; eauto.
Qed.
Lemma breserve_ok : forall h o els cap i n, bok h o (els, (cap, i)) -> n <= cap -> exists h' o', bv_reserve A h o n = Ret (h', o') /\ frame A h (q_ptr A o) h' (q_ptr A o') /\ bok h' o' (els, (cap, i)).
Proof.
  intros h o els cap i n OK LE. unfold bv_reserve. pose proof OK as (_ & A2 & _). cbn [fst snd] in A2. rewrite A2. rewrite (proj2 (Nat.ltb_ge cap n) LE). exists h, o. split; auto. split; auto. apply frame_same.
Qed.
Lemma bclear_ok : forall h o els c, bok h o (els, c) -> exists h' o', bv_clear A h o = Ret (h', o') /\ frame A h (q_ptr A o) h' (q_ptr A o') /\ bok h' o' ([], c).
Proof.
  intros h o els [cap i] (A1 & A2 & A3 & A4). cbn [fst snd] in *. unfold bv_clear. eexists; eexists. split; [reflexivity|]. cbn [q_ptr]. split; [apply frame_same|]. unfold bok. cbn [fst snd q_size q_cap q_ptr length]. split; auto. split; auto. split; [lia|].
  destruct A4 as [X|(P1 & P2 & a & b & P & E & L & G)]; auto. right. split; auto. split; auto. exists a, b. do 3 (split; [auto|]). intros [|k] v X; discriminate.
Qed.
Lemma bset_ok : forall h o els c k v, bok h o (els, c) -> k < length els -> exists h' o', set_ A h o k v = Ret (h', o') /\ frame A h (q_ptr A o) h' (q_ptr A o') /\ bok h' o' (upd els k (Some v), c).
Proof.
  intros h o els [cap i] k v OK Hk. pose proof OK as (_ & _ & A3 & _). cbn [fst snd] in *. destruct (bok_blk _ _ _ _ _ OK ltac:(lia)) as (a & b & P & B & EA & LB & G & -> & Ha). unfold set_. rewrite (stc_blk A h o b) by (auto; lia).
  destruct (bok_put h o _ _ _ (upd b k (Some v)) (upd els k (Some v)) OK ltac:(lia)) as [OK' F'].
  - rewrite length_upd. auto.
  - apply length_upd.
  - apply agree_set; auto. lia.
  - destruct (put A h o (upd b k (Some v))) as [h' o']. cbn [fst snd] in *. exists h', o'. auto.
Qed.
Lemma bpush_ok : forall h o els cap i v, bok h o (els, (cap, i)) -> exists h' o', bv_push A h o v = Ret (h', o') /\ frame A h (q_ptr A o) h' (q_ptr A o') /\
  bok h' o' (els ++ [Some v], if cap =? length els then (if length els =? 0 then 2 else cap * 2, true) else (cap, i)).
Proof.
  intros h o els cap i v OK. pose proof OK as (A1 & A2 & A3 & _). cbn [fst snd] in *. unfold bv_push. rewrite A1, A2.
  assert (X : exists h1 o1 c1, (if cap =? length els then bv_grow A h o (if length els =? 0 then 2 else cap * 2) else Ret (h, o)) = Ret (h1, o1) /\ frame A h (q_ptr A o) h1 (q_ptr A o1) /\ bok h1 o1 (els, c1) /\
     c1 = (if cap =? length els then (if length els =? 0 then 2 else cap * 2, true) else (cap, i)) /\ length els < fst c1).
  { destruct (cap =? length els) eqn:E.
    - apply Nat.eqb_eq in E. set (n := if length els =? 0 then 2 else cap * 2). assert (LT : cap < n). { unfold n. destruct (length els =? 0) eqn:Z; [apply Nat.eqb_eq in Z|apply Nat.eqb_neq in Z]; lia. }
      destruct (bgrow_ok h o els cap i n OK LT ltac:(lia)) as (h1 & o1 & E1 & F1 & OK1). exists h1, o1, (n, true). do 4 (split; [auto|]). cbn. lia.
    - apply Nat.eqb_neq in E. exists h, o, (cap, i). split; auto. split; [apply frame_same|]. split; auto. split; auto. cbn. lia. }
  destruct X as (h1 & o1 & [c1 i1] & -> & F1 & OK1 & <- & LT). cbn [bind fst] in *. destruct (bok_blk _ _ _ _ _ OK1 ltac:(lia)) as (a & b & P & B & EA & LB & G & -> & Ha). pose proof OK1 as (B1 & B2 & B3 & _). cbn [fst snd] in *.
  rewrite B1, (stc_blk A h1 o1 b) by (auto; lia). unfold put. rewrite P. cbn [bind]. eexists; eexists. split; [reflexivity|]. cbn [q_ptr]. pose proof (frame_put A h1 o1 (upd b (length els) (Some v))) as PF. unfold put in PF. rewrite P in PF. cbn [fst] in PF. split; [rewrite P; eapply frame_trans; [exact F1|rewrite P; exact PF]|].
  apply (bnew _ _ c1 _ (upd b (length els) (Some v))) with (a := a); cbn [q_size q_cap q_ptr]; rewrite ?app_length; cbn [length]; auto; try lia.
  - apply nth_error_upd_eq. auto.
  - rewrite length_upd. auto.
  - apply agree_push; auto. lia.
Qed.
Lemma bassign_ok : forall h o els cap i other els' c', bok h o (els, (cap, i)) -> bok h other (els', c') -> apart (q_ptr A o) (q_ptr A other) -> length els' <= cap \/ i = true ->
  exists h' o', bv_assign A h o other = Ret (h', o') /\ frame A h (q_ptr A o) h' (q_ptr A o') /\ bok h' o' (els', if cap <? length els' then (length els', true) else (cap, i)).
Proof.
  intros h o els cap i other els' [cap' i'] OK OK' AP LEG. pose proof OK as (A1 & A2 & A3 & A4). pose proof OK' as (B1 & B2 & B3 & B4). cbn [fst snd] in *. unfold bv_assign. rewrite B1, A2. destruct (cap <? length els') eqn:E.
  - apply Nat.ltb_lt in E. destruct LEG as [X| ->]; [lia|]. destruct (bok_blk _ _ _ _ _ OK' ltac:(lia)) as (a' & c & P' & C & EC & LC & GC & -> & Ha').
    assert (X : exists h1, delete_block A h (q_ptr A o) = Ret h1 /\ length h1 = length h /\ (forall a, q_ptr A o <> PHeap a -> nth_error h1 a = nth_error h a) /\ (forall a, q_ptr A o = PHeap a -> nth_error h1 a = Some None)).
    { destruct A4 as [[_ P]|(_ & _ & a & b & P & EA & LB & G)].
      - rewrite P. exists h. split; auto. split; auto. split; auto. intros; discriminate.
      - rewrite P, (delete_ok A h a b EA). eexists. split; [reflexivity|]. split; [apply length_upd|]. split.
        + intros x N. apply nth_error_upd_neq. congruence.
        + intros x Q. injection Q as <-. apply nth_error_upd_eq. apply nth_error_Some. congruence. }
    destruct X as (h1 & -> & L1 & SAME & DEAD). cbn [bind]. unfold new_block. rewrite L1. set (h2 := h1 ++ [Some (repeat None (length els'))]). cbn [bind].
    assert (L2 : length h2 = S (length h)) by (unfold h2; rewrite app_length; cbn; lia).
    assert (N2 : nth_error h2 (length h) = Some (Some (repeat None (length els')))) by (unfold h2; rewrite nth_error_app2 by lia; rewrite L1, Nat.sub_diag; reflexivity).
    assert (CB : blk A h2 other = Some c). { apply (blk_heap A h2 other a' c P'). unfold h2. rewrite nth_error_app1 by lia. rewrite SAME; auto. intros Q. apply (AP a'); auto. }
    set (o2 := mkSq A (length els') (length els') [] (PHeap (length h))).
    rewrite (copy_in_ok A h2 other o2 c (repeat None (length els'))); [|auto|apply (blk_heap A h2 o2 (length h)); auto|lia|rewrite repeat_length; lia|intros a P1 P2; cbn in P1; injection P1 as <-; rewrite P' in P2; injection P2; lia].
    unfold put. cbn [q_ptr o2]. eexists; eexists. split; [reflexivity|]. cbn [q_ptr]. set (nb := firstn (length els') c ++ skipn (length els') (repeat None (length els'))). split.
    + apply frame_replace.
      * rewrite length_upd. auto.
      * intros a Ha N. rewrite nth_error_upd_neq by lia. unfold h2. rewrite nth_error_app1 by lia. apply SAME. auto.
      * intros a P. specialize (DEAD a P). rewrite nth_error_upd_neq. -- unfold h2. rewrite nth_error_app1; auto. apply nth_error_Some. congruence. -- assert (a < length h1) by (apply nth_error_Some; congruence). lia.
    + apply (bnew _ _ (length els') _ nb) with (a := length h); subst o2; cbn [q_size q_cap q_ptr]; auto; try lia.
      * apply nth_error_upd_eq. lia.
      * unfold nb. rewrite app_length, firstn_length, skipn_length, repeat_length. lia.
      * apply agree_copy; auto. lia.
  - apply Nat.ltb_ge in E. cbn [bind]. set (o2 := mkSq A (length els') cap [] (q_ptr A o)). assert (EL : els' = [] \/ 0 < length els') by (destruct els'; [auto|right; cbn; lia]). destruct EL as [EL|PL].
    + subst els'. unfold copy_in. cbn [seq foldM length]. exists h, o2. split; auto. split; [apply frame_same|]. unfold bok. subst o2. cbn [fst snd q_size q_cap q_ptr length]. do 2 (split; [auto|]). split; [lia|]. destruct A4 as [X|(P1 & P2 & a & b & P & EA & LB & G)]; auto. right. split; auto. split; auto. exists a, b. do 3 (split; [auto|]). intros [|k] v X; discriminate.
    + destruct (bok_blk _ _ _ _ _ OK' ltac:(lia)) as (a' & c & P' & C & EC & LC & GC & -> & Ha'). destruct (bok_blk _ _ _ _ _ OK ltac:(lia)) as (a & b & P & B & EA & LB & G & -> & Ha).
      rewrite (copy_in_ok A h other o2 c b); [|auto|apply (blk_heap A h o2 a b P); auto|lia|lia|exact AP]. unfold put. cbn [q_ptr o2]. rewrite P. eexists; eexists. split; [reflexivity|]. cbn [q_ptr].
      assert (LN : length (firstn (length els') c ++ skipn (length els') b) = cap) by (rewrite app_length, firstn_length, skipn_length; lia). split.
      * pose proof (frame_put A h o (firstn (length els') c ++ skipn (length els') b)) as PF. unfold put in PF. rewrite P in PF. cbn [fst] in PF. unfold o2. cbn [q_ptr]. rewrite P. exact PF.
      * apply (bnew _ _ cap _ (firstn (length els') c ++ skipn (length els') b)) with (a := a); subst o2; cbn [q_size q_cap q_ptr]; auto; try lia. -- apply nth_error_upd_eq. auto. -- apply agree_copy; auto. lia.
Qed.

Notation tie := (tie A (nat * bool)).
Lemma buf_run : forall ops w cs, buf_history A ops w cs -> exists st sw, foldM (bv_step A) ops ([], []) = Ret st /\ winv A S' bok st sw /\ tie sw w cs.
Proof.
  intros ops w cs H. induction H as [|ops w cs p w' H IH V LEG].
  - exists ([], []), []. split; auto. split; [apply winv_init|]. split; auto. split; auto. intros [|i] s E; discriminate.
  - destruct IH as ([h objs] & sw & R & INV & T). rewrite foldM_app, R. cbn [bind foldM].
    assert (DONE : forall st, bv_step A (h, objs) p = Ret st -> (exists sw', winv A S' bok st sw' /\ tie sw' w' (buf_caps A w cs p)) ->
      exists st0 sw', (w0 <- bv_step A (h, objs) p ;; Ret w0) = Ret st0 /\ winv A S' bok st0 sw' /\ tie sw' w' (buf_caps A w cs p)).
    { intros st E (sw' & W & T'). exists st, sw'. rewrite E. auto. }
    assert (MK : forall f s', (exists h' o', f h = Ret (h', o') /\ frame A h PNull h' (q_ptr A o') /\ bok h' o' s') -> exists st, make A (h, objs) f = Ret st /\ winv A S' bok st (sw ++ [Some s'])).
    { intros f s' (h' & o' & E & F & OK). unfold make. cbn [fst snd]. rewrite E. cbn [bind]. eexists. split; [reflexivity|]. eapply winv_make; eauto using bok_live, bok_frame. }
    assert (CH : forall i c f s', vget A w i = Some c -> (forall o, nth_error objs i = Some (Some o) -> bok h o (c, nth i cs (0, true)) -> exists h' o', f h o = Ret (h', o') /\ frame A h (q_ptr A o) h' (q_ptr A o') /\ bok h' o' s') ->
       exists st, change A (h, objs) i f = Ret st /\ winv A S' bok st (upd sw i (Some s'))).
    { intros i c f s' G Hf. destruct (tie_get A (nat * bool) (0, true) _ _ _ _ _ T G) as (cap & ES & <- & _). destruct (winv_obj A S' bok (h, objs) sw i _ INV ES) as (o & EO & EN & OK). cbn [fst snd] in *. destruct (Hf o EN OK) as (h' & o' & E & F & OK').
      unfold change. rewrite EO. cbn [bind fst snd]. rewrite E. cbn [bind]. eexists. split; [reflexivity|]. eapply winv_change; eauto using bok_live, bok_frame. }
    destruct p as [|n|n v|i|i j|i l|i v|i n|i n|i|i k v|i]; cbn [v_step buf_caps buf_legal bv_step] in *.
    + injection V as <-. destruct (MK (bv_default A) _ (bdefault_ok h)) as (st & E & W). apply (DONE st E). eexists. split; eauto. apply tie_app. auto.
    + injection V as <-. destruct (MK (fun h => bv_sized A h n) _ (bsized_ok h n)) as (st & E & W). apply (DONE st E). eexists. split; eauto. apply tie_app. auto.
    + injection V as <-. destruct (MK (fun h => bv_filled A h n v) _ (bfilled_ok h n v LEG)) as (st & E & W). apply (DONE st E). eexists. split; eauto. apply tie_app. auto.
    + destruct (vget A w i) as [c|] eqn:G; [|discriminate]. injection V as <-. destruct (tie_get A _ (0, true) _ _ _ _ _ T G) as ([cap ini] & ES & NC & VS). destruct (winv_obj A S' bok (h, objs) sw i _ INV ES) as (o & EO & EN & OK).
      rewrite EO in DONE |- *. cbn [bind fst] in *. destruct (MK (fun h => bv_copy A h o) _ (bcopy_ok h o c cap ini OK)) as (st & E & W). apply (DONE st E). eexists. split; eauto. rewrite VS. apply tie_app. auto.
    + destruct (vget A w j) as [cj|] eqn:GJ; [|discriminate]. unfold on in V. destruct (vget A w i) as [ci|] eqn:GI; [|discriminate]. injection V as <-.
      destruct (tie_get A _ (0, true) _ _ _ _ _ T GJ) as ([capj inij] & ESJ & NCJ & VSJ). destruct (winv_obj A S' bok (h, objs) sw j _ INV ESJ) as (oj & EOJ & ENJ & OKJ). destruct (tie_get A _ (0, true) _ _ _ _ _ T GI) as ([capi inii] & ESI & NCI & VSI). cbn [snd fst] in *.
      rewrite EOJ in DONE |- *. cbn [bind] in *. rewrite VSJ, NCI in *. cbn [fst snd] in *. destruct (Nat.eq_dec i j) as [->|NE].
      * rewrite Nat.eqb_refl in *. cbn [negb andb]. assert (cj = ci) by congruence. subst cj. edestruct (CH j ci (fun h o => Ret (h, o)) (ci, (capj, inij)) GJ) as (st & E & W).
        { intros o _ OK. exists h, o. split; auto. split; [apply frame_same|]. rewrite NCJ in OK. auto. }
        apply (DONE st E). eexists. split; eauto. eapply tie_upd0; eauto.
      * destruct LEG as [X|LEG]; [contradiction|]. pose proof (proj2 (Nat.eqb_neq i j) NE) as X. rewrite X in *. cbn [negb andb].
        edestruct (CH i ci (fun h o => bv_assign A h o oj) (cj, if capi <? length cj then (length cj, true) else (capi, inii)) GI) as (st & E & W).
        { intros o EN OK. rewrite NCI in OK. eapply bassign_ok; eauto. eapply (winv_apart A S' bok (h, objs) sw i j); eauto. }
        apply (DONE st E). eexists. split; eauto. destruct (capi <? length cj); [eapply tie_upd1; eauto|eapply tie_upd0; eauto].
    + unfold on in V. destruct (vget A w i) as [c|] eqn:G; [|discriminate]. injection V as <-. destruct (tie_get A _ (0, true) _ _ _ _ _ T G) as ([cap ini] & ES & NC & VS). rewrite NC, ?VS in *. cbn [fst snd] in *.
      destruct (CH i c (fun h o => bv_range A h o l) (map Some l, if cap <? length l then (length l, true) else (cap, ini)) G) as (st & E & W); [intros o _ OK; rewrite NC in OK; apply (brange_ok h o c cap ini l OK LEG)|].
      apply (DONE st E). eexists. split; eauto. destruct (cap <? length l); [eapply tie_upd1; eauto|eapply tie_upd0; eauto].
    + unfold on in V. destruct (vget A w i) as [c|] eqn:G; [|discriminate]. injection V as <-. destruct (tie_get A _ (0, true) _ _ _ _ _ T G) as ([cap ini] & ES & NC & VS). rewrite NC, ?VS in *. cbn [fst snd] in *.
      destruct (CH i c (fun h o => bv_push A h o v) (c ++ [Some v], if cap =? length c then (if length c =? 0 then 2 else cap * 2, true) else (cap, ini)) G) as (st & E & W); [intros o _ OK; rewrite NC in OK; apply (bpush_ok h o c cap ini v OK)|].
      apply (DONE st E). eexists. split; eauto. destruct (cap =? length c); [eapply tie_upd1; eauto|eapply tie_upd0; eauto].
    + unfold on in V. destruct (vget A w i) as [c|] eqn:G; [|discriminate]. injection V as <-. destruct (tie_get A _ (0, true) _ _ _ _ _ T G) as ([cap ini] & ES & NC & VS). rewrite NC, ?VS in *. cbn [fst snd] in *.
      destruct (CH i c (fun h o => bv_resize A h o n) (resized A c n, if cap <? n then (n, true) else (cap, ini)) G) as (st & E & W); [intros o _ OK; rewrite NC in OK; apply (bresize_ok h o c cap ini n OK LEG)|].
      apply (DONE st E). eexists. split; eauto. destruct (cap <? n); [eapply tie_upd1; eauto|eapply tie_upd0; eauto].
    + unfold on in V. destruct (vget A w i) as [c|] eqn:G; [|discriminate]. injection V as <-. destruct (tie_get A _ (0, true) _ _ _ _ _ T G) as ([cap ini] & ES & NC & VS). rewrite NC in *. cbn [fst snd] in *.
      destruct (CH i c (fun h o => bv_reserve A h o n) (c, (cap, ini)) G) as (st & E & W); [intros o _ OK; rewrite NC in OK; apply (breserve_ok h o c cap ini n OK LEG)|].
      apply (DONE st E). eexists. split; eauto. eapply tie_upd0; eauto.
    + unfold on in V. destruct (vget A w i) as [c|] eqn:G; [|discriminate]. injection V as <-. destruct (tie_get A _ (0, true) _ _ _ _ _ T G) as (cap & ES & NC & VS).
      destruct (CH i c (bv_clear A) ([], cap) G) as (st & E & W); [intros o _ OK; rewrite NC in OK; apply (bclear_ok h o c cap OK)|].
      apply (DONE st E). eexists. split; eauto. eapply tie_upd0; eauto.
    + unfold on in V. destruct (vget A w i) as [c|] eqn:G; [|discriminate]. destruct (k <? length c) eqn:K; [|discriminate]. apply Nat.ltb_lt in K. injection V as <-. destruct (tie_get A _ (0, true) _ _ _ _ _ T G) as (cap & ES & NC & VS).
      destruct (CH i c (fun h o => set_ A h o k v) (upd c k (Some v), cap) G) as (st & E & W); [intros o _ OK; rewrite NC in OK; apply (bset_ok h o c cap k v OK K)|].
      apply (DONE st E). eexists. split; eauto. eapply tie_upd0; eauto.
    + destruct (vget A w i) as [c|] eqn:G; [|discriminate]. injection V as <-. destruct (tie_get A _ (0, true) _ _ _ _ _ T G) as (cap & ES & NC & VS). destruct (winv_obj A S' bok (h, objs) sw i _ INV ES) as (o & EO & EN & OK). cbn [fst snd] in *.
      destruct (bdestroy_ok h o _ OK) as (h' & E & F). unfold finish in DONE |- *. rewrite EO in DONE |- *. cbn [bind fst snd] in *. rewrite E in DONE |- *. cbn [bind] in *. apply (DONE _ eq_refl). exists (upd sw i None). split.
      * eapply winv_finish; eauto using bok_live, bok_frame.
      * destruct T as (-> & L & N). split; [rewrite map_upd; auto|]. split; [rewrite length_upd; auto|]. intros j s X. destruct (Nat.eq_dec j i) as [->|NE]; [|rewrite nth_error_upd_neq in X by auto; auto].
        rewrite nth_error_upd_eq in X by (apply nth_error_Some; congruence). discriminate.
Qed.
Lemma buf_shows : forall st sw w cs, winv A S' bok st sw -> tie sw w cs -> shows A st w.
Proof.
  intros st sw w cs INV T. pose proof INV as (F & _ & _). apply F2nth in F. destruct F as [L N]. pose proof T as (-> & _ & _). split; [rewrite map_length; auto|]. split; [|split].
  - intros i E. rewrite nth_error_map in E. destruct (nth_error sw i) as [[s|]|] eqn:ES; try discriminate. destruct (nth_error (snd st) i) as [oo|] eqn:EO.
    + pose proof (N i _ _ EO ES) as R. destruct oo; [destruct R|auto].
    + apply nth_error_None in EO. assert (i < length sw) by (apply nth_error_Some; congruence). lia.
  - intros i c E. rewrite nth_error_map in E. destruct (nth_error sw i) as [[[c' [cap ini]]|]|] eqn:ES; try discriminate. cbn in E. injection E as ->. destruct (winv_obj A S' bok st sw i _ INV ES) as (o & EO & EN & OK). exists o. split; auto.
    pose proof OK as (A1 & A2 & A3 & _). cbn [fst snd] in *. split; auto. intros k v E. assert (k < length c) by (apply nth_error_Some; congruence). destruct (bok_blk _ _ _ _ _ OK ltac:(lia)) as (a & b & P & B & EA & LB & G & _).
    unfold at_. rewrite (ld_blk A _ _ b k B). rewrite (rd_Ret _ _ _ _ (G k v E)). auto.
  - intros D. eapply winv_freed; eauto. intros i [c cap] E. apply (D i c). rewrite nth_error_map, E. auto.
Qed.
End Buffer.
