(** Proofs about the operations on the entries of views: copies, assignments, element-wise
    operations and resizing. *)
From Coq Require Import Permutation.
From Verif Require Import Base ShapeSpec ShapeProofs MarrayModel MarraySpec MarrayProofs MarrayIter.

Lemma fmap_foldM : forall A B S (f : S -> B -> outcome S) (h : A -> B) l s,
  foldM f (map h l) s = foldM (fun s a => f s (h a)) l s.
Proof. intros A B S f h l. induction l as [|a l IH]; intros s; cbn [map foldM]; auto. destruct (f s (h a)); cbn [bind]; auto. Qed.
Lemma fext_foldM : forall A S (f f' : S -> A -> outcome S) l, (forall a s, In a l -> f s a = f' s a) -> forall s, foldM f l s = foldM f' l s.
Proof.
  intros A S f f' l H. induction l as [|a l IH]; intros s; cbn [foldM]; auto. rewrite H by (left; auto).
  destruct (f' s a); cbn [bind]; auto. apply IH. intros. apply H. right; auto.
Qed.
Lemma fflat_foldM : forall A B S (f : S -> B -> outcome S) (h : A -> list B) l s,
  foldM f (flat_map h l) s = foldM (fun s a => foldM f (h a) s) l s.
Proof.
  intros A B S f h l. induction l as [|a l IH]; intros s; cbn [flat_map foldM]; auto. rewrite foldM_app.
  destruct (foldM f (h a) s); cbn [bind]; auto.
Qed.

Section Mem.
Context {V : Type}.
Variable garbage : V.
Notation memory := (list V).

(** * Element-wise updates *)
Definition step2 (f : V -> V -> V) (m : memory) (p : nat * nat) : outcome memory :=
  x <- rd m (fst p) ;; y <- rd m (snd p) ;; wr m (fst p) (f x y).

Lemma nth_error_lt : forall (m : memory) a, a < length m -> exists x, nth_error m a = Some x.
Proof. intros m a H. destruct (nth_error m a) eqn:E; eauto. apply nth_error_None in E. lia. Qed.
Lemma rd_some : forall (m : memory) a x, nth_error m a = Some x -> rd m a = Ret x.
Proof. intros m a x H. unfold rd. rewrite H. auto. Qed.

Lemma fold_step2 : forall f ps m,
  NoDup (map fst ps) ->
  (forall t s, In (t, s) ps -> t < length m /\ s < length m) ->
  (forall t s t' s', In (t, s) ps -> In (t', s') ps -> s = t' -> t = t') ->
  exists m', foldM (step2 f) ps m = Ret m' /\ length m' = length m /\
    (forall t s x y, In (t, s) ps -> nth_error m t = Some x -> nth_error m s = Some y -> nth_error m' t = Some (f x y)) /\
    (forall a, ~ In a (map fst ps) -> nth_error m' a = nth_error m a).
Proof.
  intros f. induction ps as [|[t s] ps IH]; intros m ND R C.
  - exists m. cbn. repeat split; auto; tauto.
  - cbn [map fst] in ND. apply NoDup_cons_iff in ND. destruct ND as [NI ND].
    destruct (R t s (or_introl eq_refl)) as [Ht Hs].
    destruct (nth_error_lt m t Ht) as (x & Ex). destruct (nth_error_lt m s Hs) as (y & Ey).
    assert (ST : step2 f m (t, s) = Ret (upd m t (f x y))).
    { unfold step2. cbn [fst snd]. rewrite (rd_some _ _ _ Ex), (rd_some _ _ _ Ey). cbn [bind]. apply wr_Ret; auto. }
    destruct (IH (upd m t (f x y)) ND) as (m' & E & L & U & K).
    + intros t' s' H. rewrite length_upd. apply R. right; auto.
    + intros t1 s1 t2 s2 H1 H2. apply (C t1 s1 t2 s2); right; auto.
    + exists m'. cbn [foldM]. rewrite ST. cbn [bind]. rewrite length_upd in L. split; [auto|]. split; [auto|]. split.
      * intros t1 s1 x1 y1 [H|H] X1 Y1.
        -- inversion H; subst t1 s1. rewrite K by auto. rewrite nth_error_upd_eq by auto. congruence.
        -- assert (t1 <> t) by (intros ->; apply NI; apply (in_map fst) in H; auto).
           assert (s1 <> t). { intros ->. apply H0. apply (C t1 t t s); auto. right; auto. left; auto. }
           apply (U t1 s1); auto; rewrite nth_error_upd_neq; auto.
      * intros a Ha. cbn [map fst] in Ha. rewrite K by (intros Q; apply Ha; right; auto).
        apply nth_error_upd_neq. intros ->. apply Ha. left; auto.
Qed.

(** * Loops over memory as element-wise updates *)
Lemma copyM_pairs : forall f to from n m,
  copyM f to from n m = foldM (step2 f) (map (fun j => (to + j, from + j)) (seq 0 n)) m.
Proof. intros. unfold copyM. rewrite fmap_foldM. reflexivity. Qed.

Definition coords (shape : list nat) : list (list nat) := map (coord_of shape) (seq 0 (size_of shape)).

Lemma seq_mul : forall n s, seq 0 (s * n) = flat_map (fun j => map (fun i => j * n + i) (seq 0 n)) (seq 0 s).
Proof.
  intros n s. induction s as [|s IH]; [reflexivity|]. rewrite seq_S, flat_map_app, <- IH. cbn [flat_map plus app].
  rewrite app_nil_r. replace (S s * n) with (s * n + n) by lia. rewrite seq_app. f_equal. cbn [plus].
  clear. generalize (s * n). intros k. assert (G : forall n a, seq (k + a) n = map (fun i => k + i) (seq a n)).
  { clear. induction n; intros a; cbn; auto. f_equal. rewrite <- IHn. f_equal. lia. }
  rewrite <- G, Nat.add_0_r. auto.
Qed.

Lemma coords_snoc : forall sh s, positive sh ->
  coords (sh ++ [s]) = flat_map (fun j => map (fun c => c ++ [j]) (coords sh)) (seq 0 s).
Proof.
  intros sh s P. unfold coords. rewrite size_of_app. replace (size_of [s]) with s by (cbn; lia).
  rewrite (Nat.mul_comm (size_of sh) s), seq_mul. pose proof (size_of_pos sh P) as SP.
  assert (G : forall l, incl l (seq 0 s) ->
    map (coord_of (sh ++ [s])) (flat_map (fun j => map (fun i => j * size_of sh + i) (seq 0 (size_of sh))) l)
    = flat_map (fun j => map (fun c => c ++ [j]) (map (coord_of sh) (seq 0 (size_of sh)))) l).
  { induction l as [|j l IH]; intros I; [reflexivity|]. cbn [flat_map]. rewrite map_app. f_equal.
    - rewrite !map_map. apply map_ext_in. intros i Hi. apply in_seq in Hi. rewrite coord_of_app by auto. f_equal.
      + rewrite <- coord_of_mod by auto. rewrite Nat.add_comm, Nat.mod_add, Nat.mod_small by lia. auto.
      + rewrite Nat.add_comm, Nat.div_add, Nat.div_small by lia. cbn.
        assert (j < s) by (specialize (I j (or_introl eq_refl)); apply in_seq in I; lia). rewrite Nat.mod_small by lia. auto.
    - apply IH. intros z Hz. apply I. right; auto. }
  apply G. intros z; auto.
Qed.

Lemma coords_all : forall shape c, positive shape -> (In c (coords shape) <-> in_shape shape c).
Proof.
  intros shape c P. unfold coords. rewrite in_map_iff. split.
  - intros (k & <- & _). apply coord_of_in_shape; auto.
  - intros H. exists (index_of shape c). split; [apply coord_of_index; auto|]. apply in_seq. pose proof (index_of_lt shape c H). lia.
Qed.
Lemma coords_NoDup : forall shape, positive shape -> NoDup (coords shape).
Proof.
  intros shape P. apply NoDup_map_in; [apply seq_NoDup|]. intros a b Ha Hb E. apply in_seq in Ha, Hb.
  apply (f_equal (index_of shape)) in E. rewrite !index_of_coord in E by (auto; lia). auto.
Qed.

Lemma firstn_snoc : forall (l : list nat) n, n < length l -> firstn (S n) l = firstn n l ++ [nth n l 0].
Proof. intros l n H. rewrite (split_at _ l n 0 H) at 1. rewrite firstn_app, firstn_length. rewrite Nat.min_l by lia.
  replace (S n - n) with 1 by lia. rewrite firstn_firstn, Nat.min_r by lia. auto. Qed.

Lemma positive_firstn : forall sh n, positive sh -> positive (firstn n sh).
Proof. intros sh n P. rewrite <- (firstn_skipn n sh) in P. apply positive_app in P. tauto. Qed.

Lemma walk2 : forall (op : nat -> nat -> memory -> outcome memory) a b s k D1 D2 m,
  foldM (fun (st : nat * nat * memory) (_ : nat) => let '(d1, d2, m) := st in m' <- op d1 d2 m ;; Ret (d1 + a, d2 + b, m'))
    (seq k s) (D1 + k * a, D2 + k * b, m)
  = m' <- foldM (fun m j => op (D1 + j * a) (D2 + j * b) m) (seq k s) m ;; Ret (D1 + (k + s) * a, D2 + (k + s) * b, m').
Proof.
  intros op a b. induction s as [|s IH]; intros k D1 D2 m; cbn [seq foldM].
  - cbn [bind]. rewrite Nat.add_0_r. auto.
  - destruct (op (D1 + k * a) (D2 + k * b) m); cbn [bind]; auto.
    replace (D1 + k * a + a) with (D1 + S k * a) by lia. replace (D2 + k * b + b) with (D2 + S k * b) by lia.
    rewrite IH. replace (S k + s) with (k + S s) by lia. auto.
Qed.

Lemma operate2_pairs : forall f shape st1 st2, positive shape -> length st1 = length shape -> length st2 = length shape ->
  forall N d1 d2 m, N <= length shape ->
  operate2 f shape st1 st2 N d1 d2 m
  = foldM (step2 f) (map (fun c => (d1 + dot c (firstn N st1), d2 + dot c (firstn N st2))) (coords (firstn N shape))) m.
Proof.
  intros f shape st1 st2 P L1 L2. induction N as [|n IH]; intros d1 d2 m H.
  - cbn [operate2]. unfold coords. cbn. rewrite !Nat.add_0_r. unfold step2. cbn [fst snd].
    destruct (rd m d1) as [x| | |]; cbn [bind]; auto.
    destruct (rd m d2) as [y| | |]; cbn [bind]; auto. destruct (wr m d1 (f x y)); auto.
  - cbn [operate2]. rewrite (rd_nth _ shape n 0), (rd_nth _ st1 n 0), (rd_nth _ st2 n 0) by lia. cbn [bind].
    rewrite !firstn_snoc by lia. rewrite coords_snoc by (apply positive_firstn; auto).
    pose proof (walk2 (operate2 f shape st1 st2 n) (nth n st1 0) (nth n st2 0) (nth n shape 0) 0 d1 d2 m) as Wk.
    cbn [Nat.mul] in Wk. rewrite !Nat.add_0_r in Wk. rewrite Wk. clear Wk.
    assert (E : foldM (fun m0 j => operate2 f shape st1 st2 n (d1 + j * nth n st1 0) (d2 + j * nth n st2 0) m0) (seq 0 (nth n shape 0)) m
      = foldM (step2 f) (map (fun c => (d1 + dot c (firstn n st1 ++ [nth n st1 0]), d2 + dot c (firstn n st2 ++ [nth n st2 0])))
           (flat_map (fun j => map (fun c => c ++ [j]) (coords (firstn n shape))) (seq 0 (nth n shape 0)))) m).
    { rewrite fmap_foldM, fflat_foldM. apply fext_foldM. intros j m0 _. rewrite IH by lia. rewrite !fmap_foldM. apply fext_foldM.
      intros c m1 Hc. apply coords_all in Hc; [|apply positive_firstn; auto]. apply in_shape_length in Hc. rewrite firstn_length in Hc.
      rewrite !dot_app by (rewrite firstn_length; lia). cbn [dot]. f_equal. f_equal; lia. }
    rewrite <- E. destruct (foldM _ (seq 0 (nth n shape 0)) m); reflexivity.
Qed.

Lemma walk1 : forall (op : nat -> memory -> outcome memory) a s k D m,
  foldM (fun (st : nat * memory) (_ : nat) => let '(d, m) := st in m' <- op d m ;; Ret (d + a, m'))
    (seq k s) (D + k * a, m)
  = m' <- foldM (fun m j => op (D + j * a) m) (seq k s) m ;; Ret (D + (k + s) * a, m').
Proof.
  intros op a. induction s as [|s IH]; intros k D m; cbn [seq foldM].
  - cbn [bind]. rewrite Nat.add_0_r. auto.
  - destruct (op (D + k * a) m); cbn [bind]; auto.
    replace (D + k * a + a) with (D + S k * a) by lia. rewrite IH. replace (S k + s) with (k + S s) by lia. auto.
Qed.

Lemma step1_step2 : forall (f : V -> V) (m : memory) t, (x <- rd m t ;; wr m t (f x)) = step2 (fun x _ => f x) m (t, t).
Proof. intros. unfold step2. cbn [fst snd]. destruct (rd m t); reflexivity. Qed.

Lemma operate1_pairs : forall f shape st, positive shape -> length st = length shape ->
  forall N d m, N <= length shape ->
  operate1 f shape st N d m
  = foldM (step2 (fun x _ => f x)) (map (fun c => (d + dot c (firstn N st), d + dot c (firstn N st))) (coords (firstn N shape))) m.
Proof.
  intros f shape st P L1. induction N as [|n IH]; intros d m H.
  - cbn [operate1]. unfold coords. cbn. rewrite Nat.add_0_r, step1_step2. destruct (step2 _ m (d, d)); reflexivity.
  - cbn [operate1]. rewrite (rd_nth _ shape n 0), (rd_nth _ st n 0) by lia. cbn [bind].
    rewrite !firstn_snoc by lia. rewrite coords_snoc by (apply positive_firstn; auto).
    pose proof (walk1 (operate1 f shape st n) (nth n st 0) (nth n shape 0) 0 d m) as Wk.
    cbn [Nat.mul] in Wk. rewrite !Nat.add_0_r in Wk. rewrite Wk. clear Wk.
    assert (E : foldM (fun m0 j => operate1 f shape st n (d + j * nth n st 0) m0) (seq 0 (nth n shape 0)) m
      = foldM (step2 (fun x _ => f x)) (map (fun c => (d + dot c (firstn n st ++ [nth n st 0]), d + dot c (firstn n st ++ [nth n st 0])))
           (flat_map (fun j => map (fun c => c ++ [j]) (coords (firstn n shape))) (seq 0 (nth n shape 0)))) m).
    { rewrite fmap_foldM, fflat_foldM. apply fext_foldM. intros j m0 _. rewrite IH by lia. rewrite !fmap_foldM. apply fext_foldM.
      intros c m1 Hc. apply coords_all in Hc; [|apply positive_firstn; auto]. apply in_shape_length in Hc. rewrite firstn_length in Hc.
      rewrite !dot_app by (rewrite firstn_length; lia). cbn [dot]. f_equal. f_equal; lia. }
    rewrite <- E. destruct (foldM _ (seq 0 (nth n shape 0)) m); reflexivity.
Qed.

(** Loops with iterators. *)
Definition nth_addr (v : view) (k : nat) : nat := addr v (nth_coord (v_order v) (v_shape v) k).

Lemma rdZ_nat : forall (m : memory) a, rdZ m (Z.of_nat a) = rd m a.
Proof. intros. unfold rdZ. destruct (Z.ltb_spec (Z.of_nat a) 0); [lia|]. rewrite Nat2Z.id. auto. Qed.
Lemma wrZ_nat : forall (m : memory) a x, wrZ m (Z.of_nat a) x = wr m a x.
Proof. intros. unfold wrZ. destruct (Z.ltb_spec (Z.of_nat a) 0); [lia|]. rewrite Nat2Z.id. auto. Qed.

Lemma iterate2_pairs : forall f to from, wf_view to -> wf_view from -> iterable to -> iterable from -> v_size to = v_size from ->
  forall n k fuel it itf m, it_ok to k it -> it_ok from k itf -> k + n = v_size from -> n < fuel ->
  iterate2 fuel f to from it itf m = foldM (step2 f) (map (fun j => (nth_addr to j, nth_addr from j)) (seq k n)) m.
Proof.
  intros f to from W1 W2 I1 I2 S. induction n as [|n IH]; intros k fuel it itf m O1 O2 Hk Hf; (destruct fuel as [|fuel]; [lia|]); cbn [iterate2].
  - unfold it_hasMore. destruct O2 as (Ek & _). rewrite Ek. destruct (Nat.ltb_spec k (v_size from)); [lia|]. reflexivity.
  - unfold it_hasMore at 1. pose proof O2 as (Ek & _). rewrite Ek. destruct (Nat.ltb_spec k (v_size from)); [|lia].
    cbn [seq map foldM]. rewrite (it_ok_ptr to k it), (it_ok_ptr from k itf) by (auto; lia). rewrite !rdZ_nat.
    unfold step2 at 1. cbn [fst snd]. fold (nth_addr to k) (nth_addr from k).
    destruct (rd m (nth_addr to k)) as [x| | |]; cbn [bind]; auto. destruct (rd m (nth_addr from k)) as [y| | |]; cbn [bind]; auto.
    rewrite wrZ_nat. destruct (wr m (nth_addr to k) (f x y)) as [m'| | |]; cbn [bind]; auto.
    destruct (it_next_ok from k itf W2 I2 O2) as (itf' & E2 & O2'). destruct (it_next_ok to k it W1 I1 O1) as (it' & E1 & O1').
    rewrite E2. cbn [bind]. rewrite E1. cbn [bind]. rewrite Nat.min_r in O1', O2' by lia. apply IH; auto; lia.
Qed.
Lemma iterate1_pairs : forall f to, wf_view to -> iterable to ->
  forall n k fuel it m, it_ok to k it -> k + n = v_size to -> n < fuel ->
  iterate1 fuel f to it m = foldM (step2 (fun x _ => f x)) (map (fun j => (nth_addr to j, nth_addr to j)) (seq k n)) m.
Proof.
  intros f to W1 I1. induction n as [|n IH]; intros k fuel it m O1 Hk Hf; (destruct fuel as [|fuel]; [lia|]); cbn [iterate1].
  - unfold it_hasMore. destruct O1 as (Ek & _). rewrite Ek. destruct (Nat.ltb_spec k (v_size to)); [lia|]. reflexivity.
  - unfold it_hasMore at 1. pose proof O1 as (Ek & _). rewrite Ek. destruct (Nat.ltb_spec k (v_size to)); [|lia].
    cbn [seq map foldM]. rewrite (it_ok_ptr to k it) by (auto; lia). rewrite !rdZ_nat.
    rewrite <- step1_step2. cbn [fst snd]. fold (nth_addr to k).
    destruct (rd m (nth_addr to k)) as [x| | |]; cbn [bind]; auto.
    rewrite wrZ_nat. destruct (wr m (nth_addr to k) (f x)) as [m'| | |]; cbn [bind]; auto.
    destruct (it_next_ok to k it W1 I1 O1) as (it' & E1 & O1').
    rewrite E1. cbn [bind]. rewrite Nat.min_r in O1' by lia. apply IH; auto; lia.
Qed.

(** The loop that copies a view into consecutive memory. *)
Lemma gather_pairs : forall v d, wf_view v -> iterable v ->
  forall n k it m, it_ok v k it -> k + n = v_size v -> d + v_size v <= length m ->
  exists it',
  foldM (fun (st : iter * memory) j =>
     let '(it, m) := st in
     y <- rdZ m (i_ptr it) ;;
     m' <- wr m (d + j) y ;;
     it' <- it_next v it ;;
     Ret (it', m')) (seq k n) (it, m)
  = m' <- foldM (step2 (fun _ y => y)) (map (fun j => (d + j, nth_addr v j)) (seq k n)) m ;; Ret (it', m').
Proof.
  intros v d W I. induction n as [|n IH]; intros k it m O Hk Hd; cbn [seq foldM map].
  - exists it. reflexivity.
  - rewrite (it_ok_ptr v k it) by (auto; lia). rewrite rdZ_nat. fold (nth_addr v k). unfold step2 at 1. cbn [fst snd].
    destruct (nth_error_lt m (d + k)) as (x & Ex); [lia|]. rewrite (rd_some _ _ _ Ex). cbn [bind].
    destruct (it_next_ok v k it W I O) as (it' & E1 & O1').
    destruct (rd m (nth_addr v k)) as [y| | |]; cbn [bind]; eauto. rewrite wr_Ret by lia. cbn [bind]. rewrite E1. cbn [bind].
    rewrite Nat.min_r in O1' by lia. apply IH; auto; try lia. rewrite length_upd. auto.
Qed.

(** * Views on a memory *)
Definition fits (m : memory) (v : view) : Prop := forall c, in_shape (v_shape v) c -> addr v c < length m.
Definition injective (v : view) : Prop := forall c d, in_shape (v_shape v) c -> in_shape (v_shape v) d -> addr v c = addr v d -> c = d.

(** [covers ps to from]: the pairs of addresses of the entries of two views of the same shape. *)
Lemma pairs_by_coord : forall f to from m cs, wf_view to -> wf_view from -> v_shape to = v_shape from ->
  NoDup cs -> (forall c, In c cs <-> in_shape (v_shape to) c) ->
  injective to -> fits m to -> fits m from ->
  (forall c d, in_shape (v_shape to) c -> in_shape (v_shape to) d -> addr from c = addr to d -> c = d) ->
  exists m', foldM (step2 f) (map (fun c => (addr to c, addr from c)) cs) m = Ret m' /\ length m' = length m /\
    (forall c x y, in_shape (v_shape to) c -> nth_error m (addr to c) = Some x -> nth_error m (addr from c) = Some y ->
       nth_error m' (addr to c) = Some (f x y)) /\
    (forall a, (forall c, in_shape (v_shape to) c -> addr to c <> a) -> nth_error m' a = nth_error m a).
Proof.
  intros f to from m cs W1 W2 SH ND A IN F1 F2 DJ.
  destruct (fold_step2 f (map (fun c => (addr to c, addr from c)) cs) m) as (m' & E & L & U & K).
  - rewrite map_map. cbn [fst]. apply NoDup_map_in; auto. intros c d Hc Hd H. apply A in Hc, Hd. apply IN; auto.
  - intros t s H. apply in_map_iff in H. destruct H as (c & H & Hc). inversion H; subst. apply A in Hc. split; [apply F1; auto|].
    apply F2. rewrite <- SH. auto.
  - intros t s t' s' H H' EQ. apply in_map_iff in H, H'. destruct H as (c & H & Hc). destruct H' as (d & H' & Hd).
    inversion H; inversion H'; subst. apply A in Hc, Hd. rewrite (DJ c d) by auto. auto.
  - exists m'. split; [auto|]. split; [auto|]. split.
    + intros c x y Hc Hx Hy. apply (U (addr to c) (addr from c)); auto. apply in_map_iff. exists c. split; auto. apply A; auto.
    + intros a H. apply K. intros Q. rewrite map_map in Q. apply in_map_iff in Q. destruct Q as (c & Q & Hc). cbn in Q. apply A in Hc. apply (H c); auto.
Qed.

(** The coordinates in the order of an iterator. *)
Definition ncoords (o : order) (shape : list nat) : list (list nat) := map (nth_coord o shape) (seq 0 (size_of shape)).
Lemma ncoords_all : forall o shape c, positive shape -> (In c (ncoords o shape) <-> in_shape shape c).
Proof.
  intros o shape c P. unfold ncoords. rewrite in_map_iff. split.
  - intros (k & <- & _). apply nth_coord_in_shape; auto.
  - intros H. exists (number o shape c). split; [apply nth_coord_number; auto|]. apply in_seq. pose proof (number_lt o shape c H). lia.
Qed.
Lemma ncoords_NoDup : forall o shape, positive shape -> NoDup (ncoords o shape).
Proof.
  intros o shape P. apply NoDup_map_in; [apply seq_NoDup|]. intros a b Ha Hb E. apply in_seq in Ha, Hb.
  apply (f_equal (number o shape)) in E. rewrite !number_nth_coord in E by (auto; lia). auto.
Qed.

Lemma order_eqb_eq : forall a b, order_eqb a b = true -> a = b.
Proof. intros [] [] H; auto; discriminate. Qed.
Lemma order_eqb_refl : forall a, order_eqb a a = true.
Proof. intros []; auto. Qed.

Lemma base_addr : forall v k, wf_view v -> nth_addr v 0 = addr v (repeat 0 (length (v_shape v))) /\ (v_simple v = true -> k < v_size v -> nth_addr v k = nth_addr v 0 + k).
Proof.
  intros v k W. split.
  - unfold nth_addr. f_equal. destruct (v_order v); cbn [nth_coord].
    + rewrite coord_of_0 by (apply positive_rev, (wv_pos v W)). rewrite rev_length. 
      clear. induction (length (v_shape v)); auto. cbn [repeat rev]. rewrite IHn. symmetry. apply repeat_cons.
    + apply coord_of_0, (wv_pos v W).
  - intros S H. apply addr_simple; auto.
Qed.
Lemma dot_zeros : forall st, dot (repeat 0 (length st)) st = 0.
Proof. induction st; cbn; auto. Qed.
Lemma addr_0 : forall v b, wf_view v -> v_data v = Some b -> nth_addr v 0 = b.
Proof.
  intros v b W D. destruct (base_addr v 0 W) as [-> _]. unfold addr. rewrite D. rewrite <- (wv_len v W), dot_zeros. lia.
Qed.

(** Orders in which the loop of [apply2] can run. *)
Lemma apply2_pairs : forall f to from m, wf_view to -> wf_view from -> v_shape to = v_shape from ->
  iterable to -> iterable from -> (v_order to = v_order from \/ length (v_shape to) <= 10) ->
  exists cs, NoDup cs /\ (forall c, In c cs <-> in_shape (v_shape to) c) /\
    apply2 f to from m = foldM (step2 f) (map (fun c => (addr to c, addr from c)) cs) m.
Proof.
  intros f to from m W1 W2 SH I1 I2 OD. pose proof (wv_pos to W1) as P.
  assert (SZ : v_size to = v_size from) by (rewrite (wv_size to W1), (wv_size from W2), SH; auto).
  pose proof (size_pos from W2) as SP. unfold apply2.
  destruct (order_eqb (v_order from) (v_order to) && v_simple from && v_simple to)%bool eqn:B.
  - apply andb_prop in B. destruct B as [B B3]. apply andb_prop in B. destruct B as [B1 B2]. apply order_eqb_eq in B1.
    exists (ncoords (v_order to) (v_shape to)). split; [apply ncoords_NoDup; auto|]. split; [intros; apply ncoords_all; auto|].
    rewrite !at_index_spec by (auto; lia). cbn [bind]. rewrite copyM_pairs. unfold ncoords. rewrite map_map, <- (wv_size to W1), SZ.
    f_equal. apply map_ext_in. intros k Hk. apply in_seq in Hk.
    rewrite (addr_simple to k) by (auto; lia). pose proof (addr_simple from k W2 B2 ltac:(lia)) as A2. rewrite B1, <- SH in *. rewrite A2. auto.
  - destruct (Nat.leb 1 (v_dim from) && Nat.leb (v_dim from) 10)%bool eqn:D.
    + exists (coords (v_shape to)). split; [apply coords_NoDup; auto|]. split; [intros; apply coords_all; auto|].
      rewrite !at_index_spec by (auto; lia). cbn [bind]. unfold v_dim, g_dim. change (g_shape (v_geo from)) with (v_shape from).
      rewrite operate2_pairs; auto; try (rewrite SH; lia).
      2:{ apply (wv_len to W1). } 2:{ rewrite (wv_len from W2), SH. auto. }
      rewrite !firstn_all2 by (rewrite ?(wv_len to W1), ?(wv_len from W2), ?SH; auto).
      f_equal. apply map_ext_in. intros c Hc.
      destruct (v_data to) as [b1|] eqn:D1; [|destruct (wv_data to W1 D1)].
      destruct (v_data from) as [b2|] eqn:D2; [|destruct (wv_data from W2 D2)].
      fold (nth_addr to 0) (nth_addr from 0). rewrite (addr_0 to b1), (addr_0 from b2) by auto. unfold addr. rewrite D1, D2. auto.
    + assert (EQ : forall k, nth_coord (v_order from) (v_shape from) k = nth_coord (v_order to) (v_shape to) k).
      { intros k. rewrite SH. destruct OD as [->|LE]; auto. unfold v_dim, g_dim in D. change (g_shape (v_geo from)) with (v_shape from) in D.
        rewrite SH in LE. destruct (v_shape from) as [|s sh]; [destruct (v_order from), (v_order to); reflexivity|].
        exfalso. cbn [length] in *. apply andb_false_iff in D. destruct D as [D|D]; apply Nat.leb_gt in D; lia. }
      exists (ncoords (v_order to) (v_shape to)). split; [apply ncoords_NoDup; auto|]. split; [intros; apply ncoords_all; auto|].
      destruct (it_at_ok from 0 W2 I2 SP) as (itf & -> & O2). destruct (it_at_ok to 0 W1 I1) as (it & -> & O1); [lia|]. cbn [bind].
      rewrite (iterate2_pairs f to from W1 W2 I1 I2 SZ (v_size from) 0) by (auto; lia).
      unfold ncoords. rewrite map_map, <- (wv_size to W1), SZ. f_equal. apply map_ext. intros k. unfold nth_addr. rewrite EQ. auto.
Qed.

Lemma apply2_ok : forall f to from m, wf_view to -> wf_view from -> v_shape to = v_shape from ->
  iterable to -> iterable from -> (v_order to = v_order from \/ length (v_shape to) <= 10) ->
  injective to -> fits m to -> fits m from ->
  (forall c d, in_shape (v_shape to) c -> in_shape (v_shape to) d -> addr from c = addr to d -> c = d) ->
  exists m', apply2 f to from m = Ret m' /\ length m' = length m /\
    (forall c x y, in_shape (v_shape to) c -> nth_error m (addr to c) = Some x -> nth_error m (addr from c) = Some y ->
       nth_error m' (addr to c) = Some (f x y)) /\
    (forall a, (forall c, in_shape (v_shape to) c -> addr to c <> a) -> nth_error m' a = nth_error m a).
Proof.
  intros f to from m W1 W2 SH I1 I2 OD IN F1 F2 DJ. destruct (apply2_pairs f to from m W1 W2 SH I1 I2 OD) as (cs & ND & A & ->).
  apply pairs_by_coord; auto.
Qed.

Lemma apply1_ok : forall f v m, wf_view v -> iterable v -> injective v -> fits m v ->
  exists m', apply1 f v m = Ret m' /\ length m' = length m /\
    (forall c x, in_shape (v_shape v) c -> nth_error m (addr v c) = Some x -> nth_error m' (addr v c) = Some (f x)) /\
    (forall a, (forall c, in_shape (v_shape v) c -> addr v c <> a) -> nth_error m' a = nth_error m a).
Proof.
  intros f v m W I IN F. pose proof (wv_pos v W) as P. pose proof (size_pos v W) as SP.
  assert (E : exists cs, NoDup cs /\ (forall c, In c cs <-> in_shape (v_shape v) c) /\
     apply1 f v m = foldM (step2 (fun x _ => f x)) (map (fun c => (addr v c, addr v c)) cs) m).
  { unfold apply1. destruct (v_simple v) eqn:S.
    - exists (ncoords (v_order v) (v_shape v)). split; [apply ncoords_NoDup; auto|]. split; [intros; apply ncoords_all; auto|].
      rewrite !at_index_spec by auto. cbn [bind]. unfold ncoords. rewrite map_map, <- (wv_size v W), fmap_foldM. apply fext_foldM.
      intros k m0 Hk. apply in_seq in Hk. rewrite step1_step2. rewrite (addr_simple v k) by (auto; lia). auto.
    - destruct (Nat.leb 1 (v_dim v) && Nat.leb (v_dim v) 10)%bool eqn:D.
      + exists (coords (v_shape v)). split; [apply coords_NoDup; auto|]. split; [intros; apply coords_all; auto|].
        rewrite !at_index_spec by (auto; lia). cbn [bind]. unfold v_dim, g_dim. change (g_shape (v_geo v)) with (v_shape v).
        rewrite operate1_pairs; auto. 2:{ apply (wv_len v W). }
        rewrite firstn_all. rewrite (firstn_all2 (v_strides v)) by (rewrite (wv_len v W); auto).
        f_equal. apply map_ext. intros c. fold (nth_addr v 0). destruct (v_data v) as [b1|] eqn:D1; [|destruct (wv_data v W D1)].
        rewrite (addr_0 v b1) by auto. unfold addr. rewrite D1. auto.
      + exists (ncoords (v_order v) (v_shape v)). split; [apply ncoords_NoDup; auto|]. split; [intros; apply ncoords_all; auto|].
        destruct (it_at_ok v 0 W I SP) as (it & -> & O1). cbn [bind].
        rewrite (iterate1_pairs f v W I (v_size v) 0) by (auto; lia). unfold ncoords. rewrite map_map, <- (wv_size v W). reflexivity. }
  destruct E as (cs & ND & A & ->).
  destruct (pairs_by_coord (fun x _ => f x) v v m cs W W eq_refl ND A IN F F IN) as (m' & E & L & U & K).
  exists m'. split; [auto|]. split; [auto|]. split; [|auto]. intros c x Hc Hx. exact (U c x x Hc Hx Hx).
Qed.
End Mem.
