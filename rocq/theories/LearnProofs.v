(** Proofs about functions with learnable weights. *)
From Coq Require Import Ring_theory Ring.
From Verif Require Import Base ShapeSpec ShapeProofs UtilModel RandomAccessSetModel RandomAccessSetSpec RandomAccessSetProofs FunctionsModel FunctionsSpec FunctionsProofs LearnModel LearnSpec.

Lemma foldM_S : forall (S : Type) (body : S -> nat -> outcome S) a k s, foldM body (seq a (Datatypes.S k)) s = (t <- foldM body (seq a k) s ;; body t (a + k)).
Proof. intros. rewrite seq_S, foldM_app. destruct (foldM body (seq a k) s); cbn; auto. destruct (body a0 (a + k)); auto. Qed.
Lemma combine_seq : forall (A B : Type) (l : list A) (k : list B) a b, length l = length k -> combine l k = map (fun i => (nth i l a, nth i k b)) (seq 0 (length l)).
Proof.
  intros A B l. induction l as [|x l IH]; intros [|y k] a b H; cbn [length] in *; try discriminate; auto. cbn [combine seq map nth]. f_equal. rewrite <- seq_shift, map_map. cbn [nth]. apply IH. lia.
Qed.
Lemma rd_shift : forall (A : Type) (pre l : list A) i, rd (pre ++ l) (length pre + i) = rd l i.
Proof. intros. unfold rd. rewrite nth_error_app2 by lia. replace (length pre + i - length pre) with i by lia. auto. Qed.
Lemma repeat_app' : forall (A : Type) (a : A) n m, repeat a (n + m) = repeat a n ++ repeat a m.
Proof. intros. apply repeat_app. Qed.

(** Writing a row into a block. *)
Lemma wr_mid : forall (A : Type) (pre : list A) x post v, wr (pre ++ x :: post) (length pre) v = Ret (pre ++ v :: post).
Proof.
  intros A pre x post v. rewrite wr_Ret by (rewrite app_length; cbn [length]; lia). f_equal. induction pre as [|a pre IH]; [reflexivity|].
  cbn [app length]. unfold upd in *. cbn. f_equal. exact IH.
Qed.
Lemma fill_row : forall (A : Type) (row old pre post : list A) (f : nat -> outcome A), length old = length row -> (forall i, f i = rd row i) ->
  foldM (fun l i => x <- f i ;; wr l (length pre + i) x) (seq 0 (length row)) (pre ++ old ++ post) = Ret (pre ++ row ++ post).
Proof.
  intros A row old pre post f L F.
  assert (G : forall done todo rest, row = done ++ todo -> length rest = length todo ->
    foldM (fun l i => x <- f i ;; wr l (length pre + i) x) (seq (length done) (length todo)) (pre ++ done ++ rest ++ post) = Ret (pre ++ row ++ post)).
  { intros done todo. revert done. induction todo as [|t todo IH]; intros done rest Er Lr; destruct rest as [|r rest]; cbn [length] in Lr; try discriminate.
    - cbn [app length seq foldM]. rewrite app_nil_r in Er. subst. auto.
    - cbn [length seq foldM]. rewrite F, Er. rewrite (rd_Ret _ _ _ t) by (rewrite nth_error_app2, Nat.sub_diag by lia; auto). cbn [bind].
      replace (pre ++ done ++ (r :: rest) ++ post) with ((pre ++ done) ++ r :: (rest ++ post)) by (rewrite <- app_assoc; auto). rewrite <- app_length, wr_mid. cbn [bind].
      specialize (IH (done ++ [t]) rest). rewrite !app_length in IH. cbn [length] in IH. rewrite Nat.add_1_r in IH. rewrite <- !app_assoc in IH. cbn [app] in IH. rewrite <- Er. rewrite <- app_assoc. cbn [app]. apply IH; auto. }
  apply (G [] row old); auto.
Qed.
Lemma fill_two : forall (A B : Type) (ra oa pa qa : list A) (rb ob pb qb : list B), length oa = length ra -> length ob = length ra -> length rb = length ra -> length pb = length pa ->
  foldM (fun (st : list A * list B) i => x <- rd ra i ;; a <- wr (fst st) (length pa + i) x ;; y <- rd rb i ;; b <- wr (snd st) (length pa + i) y ;; Ret (a, b))
    (seq 0 (length ra)) (pa ++ oa ++ qa, pb ++ ob ++ qb) = Ret (pa ++ ra ++ qa, pb ++ rb ++ qb).
Proof.
  intros A B ra oa pa qa rb ob pb qb La Lb Lr Lp.
  assert (G : forall da ta db tb xa xb, ra = da ++ ta -> rb = db ++ tb -> length db = length da -> length xa = length ta -> length xb = length ta ->
    foldM (fun (st : list A * list B) i => x <- rd ra i ;; a <- wr (fst st) (length pa + i) x ;; y <- rd rb i ;; b <- wr (snd st) (length pa + i) y ;; Ret (a, b))
      (seq (length da) (length ta)) (pa ++ da ++ xa ++ qa, pb ++ db ++ xb ++ qb) = Ret (pa ++ ra ++ qa, pb ++ rb ++ qb)).
  { intros da ta. revert da. induction ta as [|t ta IH]; intros da db tb xa xb Ea Eb Ld Lxa Lxb.
    - destruct xa, xb; cbn [length] in *; try discriminate. assert (Lt : tb = []). { apply length_zero_iff_nil. rewrite Ea, Eb, !app_length in Lr. cbn [length] in Lr. lia. } subst tb.
      rewrite app_nil_r in Ea, Eb. subst. auto.
    - destruct xa as [|a0 xa], xb as [|b0 xb]; cbn [length] in *; try discriminate. destruct tb as [|u tb]. { rewrite Ea, Eb, !app_length in Lr. cbn [length] in Lr. lia. }
      cbn [seq foldM fst snd]. rewrite Ea at 1. rewrite (rd_Ret _ _ _ t) by (rewrite nth_error_app2, Nat.sub_diag by lia; auto). cbn [bind].
      replace (pa ++ da ++ (a0 :: xa) ++ qa) with ((pa ++ da) ++ a0 :: (xa ++ qa)) by (rewrite <- app_assoc; auto). rewrite <- app_length, wr_mid. cbn [bind].
      rewrite Eb at 1. rewrite (rd_Ret _ _ _ u) by (rewrite nth_error_app2, <- Ld, Nat.sub_diag by lia; auto). cbn [bind].
      replace (pb ++ db ++ (b0 :: xb) ++ qb) with ((pb ++ db) ++ b0 :: (xb ++ qb)) by (rewrite <- app_assoc; auto).
      replace (length (pa ++ da)) with (length (pb ++ db)) by (rewrite !app_length; lia). rewrite wr_mid. cbn [bind].
      specialize (IH (da ++ [t]) (db ++ [u]) tb xa xb). rewrite !app_length in IH. cbn [length] in IH. rewrite !Nat.add_1_r in IH. rewrite <- !app_assoc in IH. cbn [app] in IH.
      rewrite <- !app_assoc. cbn [app]. apply IH; auto; lia. }
  apply (G [] ra [] rb oa ob); auto.
Qed.

Section Ring.
Variable T : Type.
Variables zero one : T.
Variables add mul sub : T -> T -> T.
Variable opp : T -> T.
Hypothesis RT : ring_theory zero one add mul sub opp (@eq T).
Add Ring TR : RT.
Notation sum := (sum T zero add).
Notation weighted := (weighted T zero add mul).

Lemma sum_from : forall l z, fold_left add l z = add z (sum l).
Proof. unfold LearnSpec.sum. induction l as [|a l IH]; intros z; cbn [fold_left]; [ring|]. rewrite IH, (IH (add zero a)). ring. Qed.
Lemma sum_cons : forall a l, sum (a :: l) = add a (sum l).
Proof. intros. unfold LearnSpec.sum at 1. cbn [fold_left]. rewrite sum_from. ring. Qed.
Lemma sum_app : forall l k, sum (l ++ k) = add (sum l) (sum k).
Proof. induction l as [|a l IH]; intros k; cbn [app]; [unfold LearnSpec.sum at 2; cbn [fold_left]; ring|]. rewrite !sum_cons, IH. ring. Qed.
Lemma sum_zeros : forall (A : Type) (f : A -> T) l, (forall a, In a l -> f a = zero) -> sum (map f l) = zero.
Proof. intros A f l H. induction l as [|a l IH]; auto. cbn [map]. rewrite sum_cons, H, IH by (cbn; auto; intros; apply H; right; auto). ring. Qed.

Lemma sum_loop : forall (body : T -> nat -> outcome T) (t : nat -> T) a n z, (forall val i, a <= i < a + n -> body val i = Ret (add val (t i))) ->
  foldM body (seq a n) z = Ret (fold_left add (map t (seq a n)) z).
Proof.
  intros body t a n. revert a. induction n as [|n IH]; intros a z H; auto. cbn [seq foldM map fold_left]. rewrite H by lia. cbn [bind]. apply IH. intros. apply H. lia.
Qed.
Lemma weighted_seq : forall w ids xs n, length ids = n -> length xs = n -> weighted w ids xs = sum (map (fun i => mul (nth (nth i ids 0) w zero) (nth i xs zero)) (seq 0 n)).
Proof. intros w ids xs n L1 L2. unfold LearnSpec.weighted. rewrite (combine_seq _ _ ids xs 0 zero) by congruence. rewrite map_map, L1. reflexivity. Qed.
Lemma nth_map_seq : forall (A : Type) (f : nat -> A) n i d, i < n -> nth i (map f (seq 0 n)) d = f i.
Proof. intros A f n i d H. rewrite nth_indep with (d' := f 0) by (rewrite map_length, seq_length; auto). rewrite map_nth, seq_nth; auto. Qed.

Lemma shift_seq : forall a k, map (Nat.add a) (seq 0 k) = seq a k.
Proof. intros a k. rewrite <- (Nat.add_0_r a) at 2. generalize 0. induction k as [|k IH]; intros b; auto. cbn [seq map]. f_equal. rewrite IH. f_equal. lia. Qed.

(** ** From the sum formula to derivatives *)
Lemma sum_upd : forall ids xs w k d, length ids = length xs -> k < length w ->
  weighted (upd w k (add (nth k w zero) d)) ids xs = add (weighted w ids xs) (mul d (sum (map snd (filter (fun p => fst p =? k) (combine ids xs))))).
Proof.
  intros ids. unfold LearnSpec.weighted. induction ids as [|i ids IH]; intros [|x xs] w k d L K; cbn [length] in L; try discriminate.
  - cbn. ring.
  - cbn [combine map filter fst snd]. rewrite !sum_cons, IH by (auto; lia). destruct (Nat.eqb_spec i k) as [->|N].
    + cbn [map snd]. rewrite sum_cons, nth_upd_eq by auto. ring.
    + rewrite nth_upd_neq by auto. ring.
Qed.
Lemma linear_derivative : forall F (L : learnable T F) f sh number, linear T zero add mul L f sh number -> derivative T zero add mul L f sh number.
Proof.
  intros F L f sh number H c Hc. destruct (H c Hc) as (ids & grads & L1 & L2 & HI & HC). exists ids, grads. split; auto. split; auto. split; [intros i Hi; destruct (HI i Hi) as (A & _ & B); auto|].
  intros w k d Lw Hk. exists (weighted w ids grads), (weighted (upd w k (add (nth k w zero) d)) ids grads).
  split; [auto|]. split; [apply HC; rewrite length_upd; auto|]. apply sum_upd; [congruence|lia].
Qed.

(** ** LPotts *)
Notation lpotts := (lpotts T).
Definition lpotts_ok (f : lpotts) (number : nat) : Prop := length (lp_feat T f) = length (lp_weightIDs T f) /\ Forall (fun i => i < number) (lp_weightIDs T f).
Lemma lpotts_call_ok : forall (f : lpotts) number w x y, lpotts_ok f number -> length w = number -> lp_weights T f = Some w ->
  lpotts_call T zero add mul f [x; y] = Ret (if x =? y then zero else weighted w (lp_weightIDs T f) (lp_feat T f)).
Proof.
  intros f number w x y [L B] Lw Ew. unfold lpotts_call, lpotts_numberOfWeights.
  rewrite (sum_loop _ (fun i => mul (nth (nth i (lp_weightIDs T f) 0) w zero) (if x =? y then zero else nth i (lp_feat T f) zero))).
  - f_equal. change (fold_left add ?l zero) with (sum l). destruct (x =? y).
    + apply sum_zeros. intros; ring.
    + symmetry. apply weighted_seq; auto.
  - intros val i Hi. rewrite (rd_nth _ _ i 0) by lia. cbn [bind]. unfold getWeight. rewrite Ew.
    rewrite Forall_forall in B. assert (Hn : nth i (lp_weightIDs T f) 0 < number) by (apply B, nth_In; lia).
    rewrite (rd_nth _ w _ zero) by lia. cbn [bind]. unfold lpotts_weightGradient. cbn [rd nth_error bind]. destruct (x =? y); cbn [negb]; [|rewrite (rd_nth _ (lp_feat T f) i zero) by lia]; reflexivity.
Qed.
Lemma two_coords : forall n c, in_shape [n; n] c -> exists x y, c = [x; y].
Proof. intros n c H. apply in_shape_length in H. destruct c as [|x [|y [|z c]]]; try discriminate. eauto. Qed.
Lemma lpotts_linear : forall (f : lpotts) number, lpotts_ok f number -> linear T zero add mul (lpotts_ln T zero add mul) f [lp_numLabels T f; lp_numLabels T f] number.
Proof.
  intros f number OK c Hc. destruct (two_coords _ _ Hc) as (x & y & ->). pose proof OK as [L B].
  exists (lp_weightIDs T f), (map (fun i => if x =? y then zero else nth i (lp_feat T f) zero) (seq 0 (length (lp_weightIDs T f)))).
  cbn [lpotts_ln ln_numberOfWeights ln_weightIndex ln_weightGradient ln_ft ln_setWeights]. split; auto. split; [rewrite map_length, seq_length; auto|]. split.
  - intros i Hi. unfold lpotts_numberOfWeights in Hi. unfold lpotts_weightIndex. rewrite (rd_nth _ _ i 0) by lia. split; auto. split; [rewrite Forall_forall in B; apply B, nth_In; lia|].
    rewrite nth_map_seq by lia. unfold lpotts_weightGradient. cbn [rd nth_error bind]. destruct (x =? y); cbn [negb]; auto. apply rd_nth. lia.
  - intros w Lw. cbn [lpotts_ft ft_call]. rewrite (lpotts_call_ok (lpotts_setWeights T w f) number w x y); auto. cbn [lpotts_setWeights lp_weightIDs lp_feat]. f_equal.
    set (gr := fun i => if x =? y then zero else nth i (lp_feat T f) zero). rewrite (weighted_seq w (lp_weightIDs T f) (map gr _) (length (lp_weightIDs T f))) by (auto; rewrite map_length, seq_length; auto). unfold gr. clear gr.
    destruct (x =? y) eqn:Q.
    + symmetry. apply sum_zeros. intros i Hi. apply in_seq in Hi. rewrite nth_map_seq by lia. ring.
    + rewrite (weighted_seq w _ _ (length (lp_weightIDs T f))) by auto. f_equal. apply map_ext_in. intros i Hi. apply in_seq in Hi. rewrite nth_map_seq by lia. auto.
Qed.

(** ** LUnary *)
Notation lunary := (lunary T).
Definition off3 (n : nat) (o : list nat) (l a b c : nat) : Prop := nth l o 0 = a /\ nth (n + l) o 0 = b /\ nth (2 * n + l) o 0 = c.
(** The offsets of every label delimit parts of the arrays. *)
Definition lunary_ok (f : lunary) (number : nat) : Prop :=
  length (lu_offsets T f) = 3 * lu_numberOfLabels T f /\ Forall (fun i => i < number) (lu_weightIds T f) /\
  forall l, l < lu_numberOfLabels T f -> exists k a fo, off3 (lu_numberOfLabels T f) (lu_offsets T f) l k a fo /\ a + k <= length (lu_weightIds T f) /\ fo + k <= length (lu_features T f).
Lemma lunary_offsets : forall (f : lunary) number l k a fo, lunary_ok f number -> l < lu_numberOfLabels T f -> off3 (lu_numberOfLabels T f) (lu_offsets T f) l k a fo ->
  numWeightsForL T f l = Ret k /\ weightIdOffset T f l = Ret a /\ featureOffset T f l = Ret fo.
Proof.
  intros f number l k a fo (L & _) Hl (H1 & H2 & H3). unfold numWeightsForL, weightIdOffset, featureOffset. rewrite Nat.mul_0_l, Nat.mul_1_l, Nat.add_0_l.
  rewrite !(rd_nth _ _ _ 0) by lia. rewrite H1, H2, H3. auto.
Qed.
Lemma firstn_skipn_nth : forall (A : Type) (l : list A) a k i d, i < k -> a + k <= length l -> nth i (firstn k (skipn a l)) d = nth (a + i) l d.
Proof. intros A l a k i d Hi Hk. rewrite <- (firstn_skipn a l) at 2. rewrite app_nth2; rewrite firstn_length_le by lia; [|lia]. replace (a + i - a) with i by lia. rewrite <- (firstn_skipn k (skipn a l)) at 2. rewrite app_nth1; auto. rewrite firstn_length_le; auto. rewrite skipn_length. lia. Qed.
(** The value at a label. *)
Lemma lunary_call_ok : forall (f : lunary) number w l k a fo, lunary_ok f number -> l < lu_numberOfLabels T f -> off3 (lu_numberOfLabels T f) (lu_offsets T f) l k a fo ->
  a + k <= length (lu_weightIds T f) -> fo + k <= length (lu_features T f) -> length w = number -> lu_weights T f = Some w ->
  lunary_call T zero add mul f [l] = Ret (weighted w (firstn k (skipn a (lu_weightIds T f))) (firstn k (skipn fo (lu_features T f)))).
Proof.
  intros f number w l k a fo OK Hl O Ha Hf Lw Ew. destruct (lunary_offsets f number l k a fo OK Hl O) as (E1 & E2 & E3). unfold lunary_call. cbn [rd nth_error bind]. rewrite E1. cbn [bind].
  rewrite (sum_loop _ (fun i => mul (nth (nth (a + i) (lu_weightIds T f) 0) w zero) (nth (fo + i) (lu_features T f) zero))).
  - f_equal. rewrite weighted_seq with (n := k) by (rewrite firstn_length_le; auto; rewrite skipn_length; lia). change (fold_left add ?l zero) with (sum l). f_equal. apply map_ext_in. intros i Hi. apply in_seq in Hi. rewrite !firstn_skipn_nth by lia. auto.
  - intros val i Hi. rewrite E2. cbn [bind]. rewrite (rd_nth _ _ (a + i) 0) by lia. cbn [bind]. unfold getWeight. rewrite Ew. destruct OK as (_ & B & _). rewrite Forall_forall in B.
    assert (Hn : nth (a + i) (lu_weightIds T f) 0 < number) by (apply B, nth_In; lia). rewrite (rd_nth _ w _ zero) by lia. cbn [bind]. rewrite E3. cbn [bind]. rewrite (rd_nth _ _ (fo + i) zero) by lia. reflexivity.
Qed.
Lemma lunary_linear : forall (f : lunary) number, lunary_ok f number -> linear T zero add mul (lunary_ln T zero add mul) f [lu_numberOfLabels T f] number.
Proof.
  intros f number OK c Hc. assert (Q : exists l, c = [l] /\ l < lu_numberOfLabels T f). { inversion Hc as [|l y c0 l0 Hl H0]; subst. inversion H0; subst. eauto. } destruct Q as (l & -> & Hl).
  pose proof OK as (L & B & H). destruct (H l Hl) as (k & a & fo & O & Ha & Hf). destruct (lunary_offsets f number l k a fo OK Hl O) as (E1 & E2 & E3).
  set (N := length (lu_weightIds T f)) in *. set (gr := fun i => if (a <=? i) && (i <? a + k) then nth (fo + (i - a)) (lu_features T f) zero else zero).
  exists (lu_weightIds T f), (map gr (seq 0 N)). cbn [lunary_ln ln_numberOfWeights ln_weightIndex ln_weightGradient ln_ft ln_setWeights].
  split; auto. split; [rewrite map_length, seq_length; auto|]. split.
  - intros i Hi. unfold lunary_numberOfWeights in Hi. fold N in Hi. unfold lunary_weightIndex. rewrite (rd_nth _ _ i 0) by auto. split; auto. split; [rewrite Forall_forall in B; apply B, nth_In; auto|].
    rewrite nth_map_seq by auto. unfold lunary_weightGradient. unfold lunary_numberOfWeights. fold N. rewrite (proj2 (Nat.ltb_lt i N) Hi). cbn [negb rd nth_error bind]. rewrite E1. cbn [bind]. unfold gr.
    destruct (Nat.ltb_spec 0 k) as [Hk|Hk].
    + rewrite E2. cbn [bind]. destruct (Nat.leb_spec a i), (Nat.ltb_spec i (a + k)); cbn [andb]; auto. rewrite E3. cbn [bind]. apply rd_nth. lia.
    + assert (k = 0) by lia. subst k. destruct (Nat.leb_spec a i), (Nat.ltb_spec i (a + 0)); cbn [andb]; auto. lia.
  - intros w Lw. cbn [lunary_ft ft_call]. rewrite (lunary_call_ok (lunary_setWeights T w f) number w l k a fo); auto. cbn [lunary_setWeights lu_weightIds lu_features]. f_equal.
    rewrite (weighted_seq w (lu_weightIds T f) (map gr (seq 0 N)) N) by (auto; rewrite map_length, seq_length; auto).
    rewrite (weighted_seq w _ _ k) by (rewrite firstn_length_le; auto; rewrite skipn_length; fold N; lia).
    replace N with (a + (k + (N - a - k))) at 1 by lia. rewrite !seq_app, !map_app, !sum_app. cbn [Nat.add].
    assert (Z1 : sum (map (fun i => mul (nth (nth i (lu_weightIds T f) 0) w zero) (nth i (map gr (seq 0 N)) zero)) (seq 0 a)) = zero).
    { apply sum_zeros. intros i Hi. apply in_seq in Hi. rewrite nth_map_seq by lia. unfold gr. destruct (Nat.leb_spec a i); cbn [andb]; [lia|ring]. }
    assert (Z2 : sum (map (fun i => mul (nth (nth i (lu_weightIds T f) 0) w zero) (nth i (map gr (seq 0 N)) zero)) (seq (a + k) (N - a - k))) = zero).
    { apply sum_zeros. intros i Hi. apply in_seq in Hi. rewrite nth_map_seq by lia. unfold gr. destruct (Nat.leb_spec a i), (Nat.ltb_spec i (a + k)); cbn [andb]; try lia; ring. }
    rewrite Z1, Z2. assert (X : forall u, u = add zero (add u zero)) by (intros; ring). rewrite <- X. f_equal.
    replace (seq a k) with (map (Nat.add a) (seq 0 k)) by (apply shift_seq). rewrite map_map. apply map_ext_in. intros i Hi. apply in_seq in Hi. rewrite !firstn_skipn_nth by (fold N; lia). rewrite nth_map_seq by lia. unfold gr.
    destruct (Nat.leb_spec a (a + i)), (Nat.ltb_spec (a + i) (a + k)); cbn [andb]; try lia. do 3 f_equal. lia.
Qed.
End Ring.
