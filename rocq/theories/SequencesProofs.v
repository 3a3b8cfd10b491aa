(** Memory lemmas for the sequence containers, and the invariant of a world of several sequences. *)
From Verif Require Import Base SequencesModel.
#[local] Arguments nth_error : simpl never.

Section Mem.
Variable A : Type.
Notation cells := (list (option A)).
Notation heap := (list (option cells)).
Notation sq := (sq A).

Definition blk (h : heap) (o : sq) : option cells :=
  match q_ptr A o with
  | PStack => Some (q_stack A o)
  | PHeap a => match nth_error h a with Some (Some b) => Some b | _ => None end
  | _ => None
  end.
Definition put (h : heap) (o : sq) (b : cells) : heap * sq :=
  match q_ptr A o with
  | PStack => (h, mkSq A (q_size A o) (q_cap A o) b PStack)
  | PHeap a => (upd h a (Some b), o)
  | _ => (h, o)
  end.
Lemma ld_blk : forall h o b k, blk h o = Some b -> ld A h o k = rd b k.
Proof.
  intros h o b k H. unfold blk in H. unfold ld. destruct (q_ptr A o) as [| | |a]; try discriminate; [congruence|].
  destruct (nth_error h a) as [[b'|]|] eqn:E; try discriminate. rewrite (rd_Ret _ _ _ _ E). cbn [bind]. congruence.
Qed.
Lemma stc_blk : forall h o b k c, blk h o = Some b -> k < length b -> stc A h o k c = Ret (put h o (upd b k c)).
Proof.
  intros h o b k c H Hk. unfold blk in H. unfold stc, put. destruct (q_ptr A o) as [| | |a] eqn:P; try discriminate.
  - injection H as <-. rewrite wr_Ret by auto. cbn [bind]. auto.
  - destruct (nth_error h a) as [[b'|]|] eqn:E; try discriminate. injection H as ->. rewrite (rd_Ret _ _ _ _ E). cbn [bind]. rewrite wr_Ret by auto. auto.
Qed.
Lemma blk_put : forall h o b b', blk h o = Some b -> blk (fst (put h o b')) (snd (put h o b')) = Some b'.
Proof.
  intros h o b b' H. unfold blk, put in *. destruct (q_ptr A o) as [| | |a] eqn:P; try discriminate; cbn [fst snd q_ptr q_stack]; auto.
  rewrite P. destruct (nth_error h a) as [[x|]|] eqn:E; try discriminate. rewrite nth_error_upd_eq; auto. apply nth_error_Some. congruence.
Qed.
Lemma put_put : forall h o b1 b2, put (fst (put h o b1)) (snd (put h o b1)) b2 = put h o b2.
Proof.
  intros h o b1 b2. unfold put. destruct (q_ptr A o) as [| | |a] eqn:P; cbn [fst snd q_ptr q_size q_cap]; rewrite ?P; auto.
  f_equal. apply upd_upd_eq.
Qed.
Lemma put_ptr : forall h o b, q_ptr A (snd (put h o b)) = q_ptr A o.
Proof. intros. unfold put. destruct (q_ptr A o) eqn:P; cbn; auto. Qed.
Lemma put_size : forall h o b, q_size A (snd (put h o b)) = q_size A o /\ q_cap A (snd (put h o b)) = q_cap A o.
Proof. intros. unfold put. destruct (q_ptr A o) eqn:P; cbn; auto. Qed.
Lemma put_stack : forall h o b c, blk h o = Some c -> length b = length c -> length (q_stack A (snd (put h o b))) = length (q_stack A o).
Proof. intros h o b c. unfold put, blk. destruct (q_ptr A o) eqn:P; cbn; auto. intros H. injection H as <-. auto. Qed.
(** Two sequences do not share memory. *)
Definition apart (p q : ptr) : Prop := forall a, p = PHeap a -> q = PHeap a -> False.
Lemma blk_apart : forall h o src b, apart (q_ptr A o) (q_ptr A src) -> blk (fst (put h o b)) src = blk h src.
Proof.
  intros h o src b AP. unfold blk, put. destruct (q_ptr A o) as [| | |a] eqn:P; cbn [fst]; auto. destruct (q_ptr A src) as [| | |a'] eqn:P'; auto.
  rewrite nth_error_upd_neq; auto. intros X. apply (AP a); congruence.
Qed.
Lemma upd_firstn : forall X (bs bo : list X) k c, nth_error bs k = Some c -> k < length bo -> upd (firstn k bs ++ skipn k bo) k c = firstn (S k) bs ++ skipn (S k) bo.
Proof.
  intros X bs. induction bs as [|x bs IH]; intros bo k c E Hk; [destruct k; discriminate|]. destruct bo as [|y bo]; [cbn in Hk; lia|]. destruct k as [|k]; cbn.
  - injection E as ->. auto.
  - f_equal. apply IH; auto. cbn in Hk. lia.
Qed.
Lemma copy_in_ok : forall h src o bs bo n, blk h src = Some bs -> blk h o = Some bo -> n <= length bs -> n <= length bo -> apart (q_ptr A o) (q_ptr A src) ->
  copy_in A h src o n = Ret (put h o (firstn n bs ++ skipn n bo)).
Proof.
  intros h src o bs bo n HS HO Hs Ho AP. unfold copy_in. induction n as [|n IH].
  - cbn. f_equal. unfold put, blk in *. destruct (q_ptr A o) as [| | |a] eqn:P; try discriminate.
    + injection HO as <-. destruct o; cbn in *; subst; auto.
    + destruct (nth_error h a) as [[x|]|] eqn:E; try discriminate. injection HO as ->. f_equal. symmetry. apply upd_same. auto.
  - rewrite seq_S, foldM_app, IH by lia. cbn [bind foldM]. rewrite Nat.add_0_l.
    rewrite (ld_blk _ _ bs) by (rewrite blk_apart; auto). destruct (nth_error bs n) as [c|] eqn:E; [|apply nth_error_None in E; lia]. rewrite (rd_Ret _ _ _ _ E). cbn [bind].
    rewrite (stc_blk _ _ (firstn n bs ++ skipn n bo)); [|eapply blk_put; eauto|rewrite app_length, firstn_length, skipn_length; lia]. cbn [bind]. rewrite put_put. f_equal. f_equal. apply upd_firstn; auto.
Qed.
Lemma put_range_ok : forall l h o b, blk h o = Some b -> length l <= length b -> put_range A h o l = Ret (put h o (map Some l ++ skipn (length l) b)).
Proof.
  intros l h o b HB HL. unfold put_range.
  assert (G : forall n, n <= length l -> foldM (fun (p : heap * sq) (kv : nat * A) => stc A (fst p) (snd p) (fst kv) (Some (snd kv))) (combine (seq 0 n) (firstn n l)) (h, o) = Ret (put h o (map Some (firstn n l) ++ skipn n b))).
  { induction n as [|n IH]; intros Hn.
    - cbn. f_equal. unfold put, blk in *. destruct (q_ptr A o) as [| | |a] eqn:P; try discriminate.
      + injection HB as <-. destruct o; cbn in *; subst; auto.
      + destruct (nth_error h a) as [[x|]|] eqn:E; try discriminate. injection HB as ->. f_equal. symmetry. apply upd_same. auto.
    - destruct (nth_error l n) as [v|] eqn:E; [|apply nth_error_None in E; lia].
      assert (FS : firstn (S n) l = firstn n l ++ [v]). { clear - E. revert n E. induction l as [|x l IH]; intros [|n] E; try discriminate; cbn; [injection E as ->; auto|f_equal; apply IH; auto]. }
      assert (LF : length (firstn n l) = n) by (rewrite firstn_length; lia).
      assert (CS : combine (seq 0 (S n)) (firstn (S n) l) = combine (seq 0 n) (firstn n l) ++ [(n, v)]).
      { rewrite FS, seq_S. clear - LF. rewrite Nat.add_0_l. generalize (seq_length n 0). generalize (seq 0 n). intros s Hs. revert s Hs. revert LF. generalize (firstn n l). intros f. generalize n at 1 2 as m. revert n.
        induction f as [|x f IH]; intros n m LF [|y s] Hs; cbn in *; try lia; auto. f_equal. apply (IH n (m - 1)); lia. }
      rewrite CS, foldM_app, IH by lia. cbn [bind foldM fst snd].
      rewrite (stc_blk _ _ (map Some (firstn n l) ++ skipn n b)); [|eapply blk_put; eauto|rewrite app_length, map_length, LF, skipn_length; lia]. cbn [bind]. rewrite put_put. f_equal. f_equal.
      rewrite FS, map_app. cbn [map]. destruct (skipn_split _ b n ltac:(lia)) as [w ->].
      assert (U : forall (p r : cells) x z, upd (p ++ x :: r) (length p) z = (p ++ [z]) ++ r) by (clear; induction p; intros; cbn; f_equal; auto).
      specialize (U (map Some (firstn n l)) (skipn (S n) b) w (Some v)). rewrite map_length, LF in U. exact U. }
  specialize (G (length l) (le_n _)). rewrite firstn_all in G. exact G.
Qed.

(** *** Frames: what one operation does to the memory of the others *)
Definition frame (h : heap) (p : ptr) (h' : heap) (p' : ptr) : Prop :=
  length h <= length h' /\
  (forall a, a < length h -> p <> PHeap a -> nth_error h' a = nth_error h a) /\
  (forall a b, nth_error h' a = Some (Some b) -> p' = PHeap a \/ (a < length h /\ p <> PHeap a)) /\
  (forall a, p' = PHeap a -> p = PHeap a \/ length h <= a).
Lemma frame_trans : forall h p h1 p1 h2 p2, frame h p h1 p1 -> frame h1 p1 h2 p2 -> frame h p h2 p2.
Proof.
  intros h p h1 p1 h2 p2 (A1 & A2 & A3 & A4) (B1 & B2 & B3 & B4). split; [lia|]. split; [|split].
  - intros a Ha N. rewrite B2; [apply A2; auto|lia|]. intros X. destruct (A4 a X); [auto|lia].
  - intros a b H. destruct (B3 a b H) as [X|[Ha N]]; auto. right. rewrite B2 in H by auto. destruct (A3 a b H) as [X|X]; [contradiction|auto].
  - intros a H. destruct (B4 a H) as [X|X]; [apply A4; auto|right; lia].
Qed.
Lemma frame_refl_stack : forall h p p', (forall a, p <> PHeap a) -> (forall a, p' <> PHeap a) -> frame h p h p'.
Proof.
  intros h p p' H H'. split; auto. split; auto. split; [|intros a X; destruct (H' a X)]. intros a b E. right. split; auto. apply nth_error_Some. congruence.
Qed.
Lemma frame_same : forall h p, frame h p h p.
Proof.
  intros h p. split; auto. split; auto. split; auto. intros a b E. destruct p as [| | |a']; try (right; split; [apply nth_error_Some; congruence|discriminate]).
  destruct (Nat.eq_dec a' a) as [->|N]; auto. right. split; [apply nth_error_Some; congruence|congruence].
Qed.
Lemma frame_put : forall h o b, frame h (q_ptr A o) (fst (put h o b)) (q_ptr A o).
Proof.
  intros h o b. unfold put. destruct (q_ptr A o) as [| | |a] eqn:P; cbn [fst]; try apply frame_same. split; [rewrite length_upd; auto|]. split; [|split; auto].
  - intros a' Ha N. apply nth_error_upd_neq. congruence.
  - intros a' b' E. destruct (Nat.eq_dec a' a) as [->|N]; auto. right. rewrite nth_error_upd_neq in E by auto. split; [apply nth_error_Some; congruence|congruence].
Qed.
(** A new block for a sequence that had none. *)
Lemma frame_new : forall h n p, (forall a, p <> PHeap a) -> frame h p (h ++ [Some (repeat None n)]) (PHeap (length h)).
Proof.
  intros h n p NP. split; [rewrite app_length; lia|]. split; [|split].
  - intros a Ha _. apply nth_error_app1. auto.
  - intros a b E. destruct (Nat.eq_dec a (length h)) as [->|N]; auto. right. split; auto. assert (X : a < length (h ++ [Some (repeat (@None A) n)])) by (apply nth_error_Some; congruence). rewrite app_length in X. cbn in X. lia.
  - intros a X. injection X as <-. auto.
Qed.
Lemma frame_delete : forall h a b p, nth_error h a = Some (Some b) -> (forall a, p <> PHeap a) -> frame h (PHeap a) (upd h a None) p.
Proof.
  intros h a b p E NP. split; [rewrite length_upd; auto|]. split; [|split].
  - intros a' Ha N. apply nth_error_upd_neq. congruence.
  - intros a' b' E'. right. destruct (Nat.eq_dec a' a) as [->|N]. + rewrite nth_error_upd_eq in E' by (apply nth_error_Some; congruence). discriminate.
    + rewrite nth_error_upd_neq in E' by auto. split; [apply nth_error_Some; congruence|congruence].
  - intros a' X. destruct (NP a' X).
Qed.
Lemma delete_ok : forall h a b, nth_error h a = Some (Some b) -> delete_block A h (PHeap a) = Ret (upd h a None).
Proof. intros h a b E. unfold delete_block. rewrite (rd_Ret _ _ _ _ E). auto. Qed.
Lemma blk_heap : forall h o a b, q_ptr A o = PHeap a -> blk h o = Some b <-> nth_error h a = Some (Some b).
Proof. intros h o a b P. unfold blk. rewrite P. destruct (nth_error h a) as [[x|]|]; split; congruence. Qed.

(** copy_to, the reallocation. *)
Lemma copy_to_ok : forall h src n a bs bo, blk h src = Some bs -> nth_error h a = Some (Some bo) -> n <= length bs -> n <= length bo -> q_ptr A src <> PHeap a ->
  copy_to A h src n a = Ret (upd h a (Some (firstn n bs ++ skipn n bo))).
Proof.
  intros h src n a bs bo HS HO Hs Ho N. set (o := mkSq A 0 0 [] (PHeap a)).
  assert (X : copy_in A h src o n = Ret (put h o (firstn n bs ++ skipn n bo))). { apply copy_in_ok; auto. - apply blk_heap with (a := a); auto. - intros a' P1 P2. cbn in P1. congruence. }
  unfold copy_to. fold o.
  assert (G : forall ks h h' o', foldM (fun (p : heap * sq) k => c <- ld A (fst p) src k ;; stc A (fst p) (snd p) k c) ks (h, o) = Ret (h', o') ->
     o' = o /\ foldM (fun h k => c <- ld A h src k ;; p <- stc A h o k c ;; Ret (fst p)) ks h = Ret h').
  { clear. induction ks as [|k ks IH]; intros h h' o' H; cbn [foldM] in *; [injection H as -> ->; auto|]. cbn [fst snd] in H. destruct (ld A h src k) as [c| | |]; try discriminate. cbn [bind] in *.
    unfold stc in H at 1. unfold stc at 1. cbn [q_ptr o] in *. destruct (rd h a) as [[b|]| | |]; try discriminate. cbn [bind] in *. destruct (wr b k c) as [b'| | |]; try discriminate. cbn [bind fst] in *. apply IH. auto. }
  unfold copy_in in X. destruct (put h o (firstn n bs ++ skipn n bo)) as [h' o'] eqn:EP. apply G in X. destruct X as [_ X]. rewrite X. unfold put in EP. cbn in EP. injection EP as <- _. auto.
Qed.
End Mem.

(** *** Worlds *)
Section World.
Variable A : Type.
Variable S : Type.
Notation heap := (list (option (list (option A)))).
Variable okp : heap -> sq A -> S -> Prop.
Hypothesis okp_live : forall h o s a, okp h o s -> q_ptr A o = PHeap a -> exists b, nth_error h a = Some (Some b).
Hypothesis okp_frame : forall h h' o s, okp h o s -> (forall a, q_ptr A o = PHeap a -> nth_error h' a = nth_error h a) -> okp h' o s.

Definition rel1 (h : heap) (oo : option (sq A)) (os : option S) : Prop := match oo, os with Some o, Some s => okp h o s | None, None => True | _, _ => False end.
Definition winv (w : heap * list (option (sq A))) (sw : list (option S)) : Prop :=
  Forall2 (rel1 (fst w)) (snd w) sw /\
  (forall i j o o' a, nth_error (snd w) i = Some (Some o) -> nth_error (snd w) j = Some (Some o') -> q_ptr A o = PHeap a -> q_ptr A o' = PHeap a -> i = j) /\
  (forall a b, nth_error (fst w) a = Some (Some b) -> exists i o, nth_error (snd w) i = Some (Some o) /\ q_ptr A o = PHeap a).

Lemma F2nth : forall X Y (R : X -> Y -> Prop) l1 l2, Forall2 R l1 l2 <-> length l1 = length l2 /\ forall i x y, nth_error l1 i = Some x -> nth_error l2 i = Some y -> R x y.
Proof.
  intros X Y R. induction l1 as [|a l1 IH]; intros [|b l2]; split.
  - intros _. split; auto. intros [|i] x y H; discriminate.
  - constructor.
  - intros H. inversion H.
  - intros [H _]. discriminate.
  - intros H. inversion H.
  - intros [H _]. discriminate.
  - intros H. inversion H; subst. apply IH in H5. destruct H5 as [L N]. split; [cbn; auto|]. intros [|i] x y E1 E2; [injection E1 as <-; injection E2 as <-; auto|]. apply (N i); auto.
  - intros [L N]. constructor; [apply (N 0); auto|]. apply IH. split; [cbn in L; auto|]. intros i x y E1 E2. apply (N (Datatypes.S i)); auto.
Qed.

Lemma winv_obj : forall w sw i s, winv w sw -> nth_error sw i = Some (Some s) -> exists o, obj A w i = Ret o /\ nth_error (snd w) i = Some (Some o) /\ okp (fst w) o s.
Proof.
  intros [h objs] sw i s (F & _ & _) E. cbn [fst snd] in *. apply F2nth in F. destruct F as [L N]. destruct (nth_error objs i) as [oo|] eqn:EO.
  - pose proof (N i oo (Some s) EO E) as R. destruct oo as [o|]; [|destruct R]. exists o. split; auto. unfold obj. cbn [snd]. rewrite (rd_Ret _ _ _ _ EO). auto.
  - apply nth_error_None in EO. assert (i < length sw) by (apply nth_error_Some; congruence). lia.
Qed.
Lemma okp_alive : forall h o s a, okp h o s -> q_ptr A o = PHeap a -> a < length h.
Proof. intros h o s a H P. destruct (okp_live h o s a H P) as [b E]. apply nth_error_Some. congruence. Qed.

Lemma winv_change : forall h objs sw i o h' o' s s', winv (h, objs) sw -> nth_error objs i = Some (Some o) -> nth_error sw i = Some (Some s) ->
  frame A h (q_ptr A o) h' (q_ptr A o') -> okp h' o' s' -> winv (h', upd objs i (Some o')) (upd sw i (Some s')).
Proof.
  intros h objs sw i o h' o' s s' (F & D & O) EO ES (F1 & F2 & F3 & F4) OK. cbn [fst snd] in *. apply F2nth in F. destruct F as [L N].
  assert (Hi : i < length objs) by (apply nth_error_Some; congruence). pose proof (N i _ _ EO ES) as OKI. cbn in OKI.
  assert (OTH : forall j oj, j <> i -> nth_error objs j = Some (Some oj) -> forall a, q_ptr A oj = PHeap a -> a < length h /\ q_ptr A o <> PHeap a).
  { intros j oj NE EJ a P. destruct (nth_error sw j) as [sj|] eqn:EJS; [|apply nth_error_None in EJS; assert (j < length objs) by (apply nth_error_Some; congruence); lia].
    pose proof (N j _ _ EJ EJS) as R. destruct sj as [sj|]; [|destruct R]. split; [eapply okp_alive; eauto|]. intros X. apply NE. eapply D; eauto. }
  split; [|split]; cbn [fst snd].
  - apply F2nth. rewrite !length_upd. split; auto. intros j x y E1 E2. destruct (Nat.eq_dec j i) as [->|NE].
    + rewrite nth_error_upd_eq in E1 by auto. rewrite nth_error_upd_eq in E2 by lia. injection E1 as <-. injection E2 as <-. exact OK.
    + rewrite nth_error_upd_neq in E1, E2 by auto. pose proof (N j x y E1 E2) as R. destruct x as [oj|], y as [sj|]; auto. cbn in *. eapply okp_frame; eauto. intros a P. destruct (OTH j oj NE E1 a P). apply F2; auto.
  - intros j k oj ok a E1 E2 P1 P2. destruct (Nat.eq_dec j i) as [->|NJ], (Nat.eq_dec k i) as [->|NK]; auto.
    + rewrite nth_error_upd_eq in E1 by auto. rewrite nth_error_upd_neq in E2 by auto. injection E1 as <-. destruct (OTH k ok NK E2 a P2) as [X Y]. destruct (F4 a P1); [contradiction|lia].
    + rewrite nth_error_upd_eq in E2 by auto. rewrite nth_error_upd_neq in E1 by auto. injection E2 as <-. destruct (OTH j oj NJ E1 a P1) as [X Y]. destruct (F4 a P2); [contradiction|lia].
    + rewrite nth_error_upd_neq in E1, E2 by auto. eapply D; eauto.
  - intros a b E. destruct (F3 a b E) as [P|[Ha P]]; [exists i, o'; rewrite nth_error_upd_eq; auto|]. rewrite F2 in E by auto. destruct (O a b E) as (j & oj & EJ & PJ).
    exists j, oj. split; auto. rewrite nth_error_upd_neq; auto. intros X. subst j. assert (oj = o) by congruence. subst oj. contradiction.
Qed.
Lemma winv_make : forall h objs sw h' o' s', winv (h, objs) sw -> frame A h PNull h' (q_ptr A o') -> okp h' o' s' -> winv (h', objs ++ [Some o']) (sw ++ [Some s']).
Proof.
  intros h objs sw h' o' s' (F & D & O) (F1 & F2 & F3 & F4) OK. cbn [fst snd] in *.
  assert (LIVE : forall j oj a, nth_error objs j = Some (Some oj) -> q_ptr A oj = PHeap a -> a < length h).
  { apply F2nth in F. destruct F as [L N]. intros j oj a EJ P. destruct (nth_error sw j) as [sj|] eqn:EJS; [|apply nth_error_None in EJS; assert (j < length objs) by (apply nth_error_Some; congruence); lia].
    pose proof (N j _ _ EJ EJS) as R. destruct sj as [sj|]; [|destruct R]. eapply okp_alive; eauto. }
  assert (NTH : forall j x, nth_error (objs ++ [Some o']) j = Some x -> (j < length objs /\ nth_error objs j = Some x) \/ (j = length objs /\ x = Some o')).
  { intros j x E. destruct (Nat.lt_ge_cases j (length objs)) as [H|H]; [rewrite nth_error_app1 in E by auto; auto|]. rewrite nth_error_app2 in E by auto. right. destruct (j - length objs) as [|m] eqn:M; [|destruct m; discriminate]. injection E as <-. split; auto. lia. }
  split; [|split]; cbn [fst snd].
  - apply Forall2_app; [|constructor; [exact OK|constructor]]. apply F2nth in F. destruct F as [L N]. apply F2nth. split; auto. intros j x y E1 E2. pose proof (N j x y E1 E2) as R. destruct x as [oj|], y as [sj|]; auto. cbn in *.
    eapply okp_frame; eauto. intros a P. apply F2; [eapply LIVE; eauto|discriminate].
  - intros j k oj ok a E1 E2 P1 P2. apply NTH in E1, E2. destruct E1 as [[H1 E1]|[-> E1]], E2 as [[H2 E2]|[-> E2]]; auto.
    + eapply D; eauto.
    + injection E2 as ->. destruct (F4 a P2) as [?|X]; [discriminate|]. specialize (LIVE j oj a E1 P1). lia.
    + injection E1 as ->. destruct (F4 a P1) as [?|X]; [discriminate|]. specialize (LIVE k ok a E2 P2). lia.
  - intros a b E. destruct (F3 a b E) as [P|[Ha _]]; [exists (length objs), o'; rewrite nth_error_app2, Nat.sub_diag; auto|]. rewrite F2 in E by (auto; discriminate). destruct (O a b E) as (j & oj & EJ & PJ).
    exists j, oj. split; auto. rewrite nth_error_app1; auto. apply nth_error_Some. congruence.
Qed.
Lemma winv_finish : forall h objs sw i o h' s, winv (h, objs) sw -> nth_error objs i = Some (Some o) -> nth_error sw i = Some (Some s) ->
  frame A h (q_ptr A o) h' PNull -> winv (h', upd objs i None) (upd sw i None).
Proof.
  intros h objs sw i o h' s (F & D & O) EO ES (F1 & F2 & F3 & F4). cbn [fst snd] in *. apply F2nth in F. destruct F as [L N].
  assert (Hi : i < length objs) by (apply nth_error_Some; congruence).
  assert (OTH : forall j oj, j <> i -> nth_error objs j = Some (Some oj) -> forall a, q_ptr A oj = PHeap a -> a < length h /\ q_ptr A o <> PHeap a).
  { intros j oj NE EJ a P. destruct (nth_error sw j) as [sj|] eqn:EJS; [|apply nth_error_None in EJS; assert (j < length objs) by (apply nth_error_Some; congruence); lia].
    pose proof (N j _ _ EJ EJS) as R. destruct sj as [sj|]; [|destruct R]. split; [eapply okp_alive; eauto|]. intros X. apply NE. eapply D; eauto. }
  split; [|split]; cbn [fst snd].
  - apply F2nth. rewrite !length_upd. split; auto. intros j x y E1 E2. destruct (Nat.eq_dec j i) as [->|NE].
    + rewrite nth_error_upd_eq in E1 by auto. rewrite nth_error_upd_eq in E2 by lia. injection E1 as <-. injection E2 as <-. exact I.
    + rewrite nth_error_upd_neq in E1, E2 by auto. pose proof (N j x y E1 E2) as R. destruct x as [oj|], y as [sj|]; auto. cbn in *. eapply okp_frame; eauto. intros a P. destruct (OTH j oj NE E1 a P). apply F2; auto.
  - intros j k oj ok a E1 E2 P1 P2. destruct (Nat.eq_dec j i) as [->|NJ]; [rewrite nth_error_upd_eq in E1 by auto; discriminate|]. destruct (Nat.eq_dec k i) as [->|NK]; [rewrite nth_error_upd_eq in E2 by auto; discriminate|].
    rewrite nth_error_upd_neq in E1, E2 by auto. eapply D; eauto.
  - intros a b E. destruct (F3 a b E) as [P|[Ha P]]; [discriminate|]. rewrite F2 in E by auto. destruct (O a b E) as (j & oj & EJ & PJ).
    exists j, oj. split; auto. rewrite nth_error_upd_neq; auto. intros X. subst j. assert (oj = o) by congruence. subst oj. contradiction.
Qed.
Lemma winv_init : winv ([], []) [].
Proof. split; [constructor|]. split; [intros [|i] j o o' a E; discriminate|intros [|a] b E; discriminate]. Qed.
Lemma winv_apart : forall w sw i j o o', winv w sw -> i <> j -> nth_error (snd w) i = Some (Some o) -> nth_error (snd w) j = Some (Some o') -> apart (q_ptr A o) (q_ptr A o').
Proof. intros w sw i j o o' (_ & D & _) N E1 E2 a P1 P2. apply N. eapply D; eauto. Qed.
(** No sequence, no memory. *)
Lemma winv_freed : forall w sw, winv w sw -> (forall i s, nth_error sw i <> Some (Some s)) -> forall a b, nth_error (fst w) a <> Some (Some b).
Proof.
  intros w sw (F & D & O) H a b E. destruct (O a b E) as (i & o & EO & _). apply F2nth in F. destruct F as [L N]. destruct (nth_error sw i) as [os|] eqn:ES.
  - pose proof (N i _ _ EO ES) as R. destruct os as [s|]; [apply (H i s); auto|destruct R].
  - apply nth_error_None in ES. assert (i < length (snd w)) by (apply nth_error_Some; congruence). lia.
Qed.
End World.
