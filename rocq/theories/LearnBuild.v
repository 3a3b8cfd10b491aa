(** The constructors of LUnary and the serialization of functions with learnable weights. *)
From Coq Require Import Ring_theory Ring Permutation Sorted.
From Verif Require Import Base ShapeSpec ShapeProofs UtilModel RandomAccessSetModel RandomAccessSetSpec RandomAccessSetProofs FunctionsModel FunctionsSpec FunctionsProofs LearnModel LearnSpec LearnProofs.

Section Build.
Variable T : Type.
Variable zero : T.

(** ** Offsets *)
Lemma put_ok : forall n o l a b c, length o = 3 * n -> l < n -> exists o', put_offsets n o l a b c = Ret o' /\ length o' = 3 * n /\ off3 n o' l a b c /\
  forall l' a' b' c', l' < n -> l' <> l -> off3 n o l' a' b' c' -> off3 n o' l' a' b' c'.
Proof.
  intros n o l a b c L Hl. unfold put_offsets. rewrite Nat.mul_0_l, Nat.mul_1_l, Nat.add_0_l.
  rewrite wr_Ret by lia. cbn [bind]. rewrite wr_Ret by (rewrite length_upd; lia). cbn [bind]. rewrite wr_Ret by (rewrite !length_upd; lia). eexists. split; [reflexivity|].
  split; [rewrite !length_upd; auto|]. split.
  - unfold off3. rewrite (nth_upd_neq _ _ (2 * n + l) l), (nth_upd_neq _ _ (n + l) l), nth_upd_eq by lia. split; auto.
    rewrite (nth_upd_neq _ _ (2 * n + l) (n + l)), nth_upd_eq by (rewrite ?length_upd; lia). split; auto. apply nth_upd_eq. rewrite !length_upd. lia.
  - intros l' a' b' c' Hl' N. unfold off3. rewrite !nth_upd_neq by lia. auto.
Qed.

(** ** One list of features and of weights for each label *)
Definition before {A : Type} (fi : list (list T * A)) (l : nat) : nat := length (concat (map fst (firstn l fi))).
Lemma before_S : forall A (fi : list (list T * A)) l x, nth_error fi l = Some x -> before fi (S l) = before fi l + length (fst x).
Proof.
  intros A fi l x E. unfold before. assert (X : firstn (S l) fi = firstn l fi ++ [x]). { revert l E. induction fi as [|y fi IH]; intros [|l] E; cbn in E; try discriminate; [injection E as ->; auto|]. cbn [firstn app]. f_equal. apply IH. auto. }
  rewrite X, map_app, concat_app, app_length. cbn. rewrite app_nil_r. lia.
Qed.
Lemma before_all : forall A (fi : list (list T * A)), before fi (length fi) = length (concat (map fst fi)).
Proof. intros. unfold before. rewrite firstn_all. auto. Qed.
Definition same_lengths (fi : list (list T * list nat)) : Prop := Forall (fun x => length (snd x) = length (fst x)) fi.
Lemma same_concat : forall fi, same_lengths fi -> length (concat (map snd fi)) = length (concat (map fst fi)).
Proof. intros fi H. induction H as [|x fi Hx H IH]; auto. cbn [map concat]. rewrite !app_length, IH, Hx. auto. Qed.
Lemma same_firstn : forall fi l, same_lengths fi -> same_lengths (firstn l fi).
Proof. intros fi l H. unfold same_lengths in *. rewrite Forall_forall in *. intros x Hx. apply H. rewrite <- (firstn_skipn l fi). apply in_or_app. auto. Qed.

Definition off_body (fi : list (list T * list nat)) (st : list nat * nat * nat) (l : nat) : outcome (list nat * nat * nat) :=
  let '(o, wOffset, fOffset) := st in
  x <- rd fi l ;;
  let nw := length (snd x) in let nf := length (fst x) in
  if negb (nw =? nf) then Throw
  else o <- put_offsets (length fi) o l nw wOffset fOffset ;; Ret (o, wOffset + nw, fOffset + nf).
Lemma offsets_loop : forall (fi : list (list T * list nat)) k, k <= length fi ->
  (same_lengths (firstn k fi) -> exists o, foldM (off_body fi) (seq 0 k) (repeat 0 (length fi * 3), 0, 0) = Ret (o, before fi k, before fi k) /\ length o = 3 * length fi /\
     forall l x, l < k -> nth_error fi l = Some x -> off3 (length fi) o l (length (snd x)) (before fi l) (before fi l)) /\
  (~ same_lengths (firstn k fi) -> foldM (off_body fi) (seq 0 k) (repeat 0 (length fi * 3), 0, 0) = Throw).
Proof.
  intros fi k Hk. set (n := length fi). induction k as [|k IH].
  - cbn [seq foldM firstn]. split; [|intros N; exfalso; apply N; constructor]. intros _. exists (repeat 0 (n * 3)). split; auto. split; [rewrite repeat_length; lia|]. intros; lia.
  - destruct IH as [IH1 IH2]; [lia|]. rewrite foldM_S. cbn [Nat.add].
    destruct (nth_error fi k) as [x|] eqn:Ex; [|apply nth_error_None in Ex; lia].
    assert (X : firstn (S k) fi = firstn k fi ++ [x]). { clear - Ex. revert k Ex. induction fi as [|y fi IH]; intros [|l] E; cbn in E; try discriminate; [injection E as ->; auto|]. cbn [firstn app]. f_equal. apply IH. auto. }
    assert (SX : same_lengths (firstn (S k) fi) <-> same_lengths (firstn k fi) /\ length (snd x) = length (fst x)).
    { rewrite X. unfold same_lengths. rewrite Forall_app. split; [intros [A B]; inversion B; auto|intros [A B]; auto]. }
    split.
    + intros H. apply SX in H. destruct H as [H Hx]. destruct (IH1 H) as (o & E & Lo & OO). rewrite E. cbn [bind off_body]. rewrite (rd_Ret _ _ _ _ Ex). cbn [bind]. rewrite Hx, Nat.eqb_refl. cbn [negb].
      destruct (put_ok n o k (length (fst x)) (before fi k) (before fi k) Lo) as (o' & E' & Lo' & P & R); [unfold n; lia|]. fold n. rewrite E'. cbn [bind]. exists o'. rewrite (before_S _ _ _ _ Ex). split; auto. split; auto.
      intros l y Hl Ey. destruct (Nat.eq_dec l k) as [->|N]; [assert (y = x) by congruence; subst; rewrite Hx; auto|]. apply R; [unfold n; lia|auto|]. apply OO; auto. lia.
    + intros H. destruct (Forall_dec _ (fun x : list T * list nat => Nat.eq_dec (length (snd x)) (length (fst x))) (firstn k fi)) as [S1|S1].
      * destruct (IH1 S1) as (o & E & _). rewrite E. cbn [bind off_body]. rewrite (rd_Ret _ _ _ _ Ex). cbn [bind]. destruct (Nat.eqb_spec (length (snd x)) (length (fst x))) as [Q|Q]; cbn [negb]; auto. exfalso. apply H. apply SX. split; auto.
      * rewrite IH2; auto.
Qed.

Lemma ras_dup : forall ids, exists s, ras_insert_range nat Nat.ltb [] ids = Ret s /\ (length s = length ids <-> NoDup ids).
Proof.
  intros ids. assert (SW : strict_weak_order nat Nat.ltb). { constructor; intros; repeat rewrite ?Nat.ltb_lt, ?Nat.ltb_ge in *; try lia. }
  destruct (insert_range_spec nat Nat.ltb SW ids []) as (s & E & A & C); [constructor|]. exists s. split; auto.
  assert (CI : forall l x, contains nat Nat.ltb l x <-> In x l).
  { intros l x. unfold contains. split; [intros (y & Hy & E1)|intros H; exists x; split; auto]. { unfold eqv in E1. destruct E1 as [E1 E2]. rewrite Nat.ltb_ge in *. assert (x = y) by lia. subst; auto. } unfold eqv. rewrite Nat.ltb_irrefl. auto. }
  assert (NS : NoDup s). { clear - A. induction A as [|a s A IH F]; constructor; auto. intros I. rewrite Forall_forall in F. specialize (F _ I). rewrite Nat.ltb_irrefl in F. discriminate. }
  assert (SI : forall x, In x s <-> In x ids). { intros x. rewrite <- CI, C, !CI. cbn. tauto. }
  split.
  - intros L. apply (@NoDup_incl_NoDup nat s ids); auto; [lia|]. intros x Hx. apply SI. auto.
  - intros ND. apply Nat.le_antisymm; apply NoDup_incl_length; auto; intros x Hx; apply SI; auto.
Qed.

Definition fill_body (f : lunary T) (fi : list (list T * list nat)) (st : list nat * list T) (l : nat) : outcome (list nat * list T) :=
  nw <- numWeightsForL T f l ;;
  foldM (fun (st : list nat * list T) i =>
    let '(ids, feats) := st in
    fo <- featureOffset T f l ;; x <- rd fi l ;;
    id <- rd (snd x) i ;; ids <- wr ids (fo + i) id ;;
    fe <- rd (fst x) i ;; feats <- wr feats (fo + i) fe ;;
    Ret (ids, feats)) (seq 0 nw) st.
Lemma foldM_ext : forall (S : Type) (f h : S -> nat -> outcome S) l s, (forall s i, In i l -> f s i = h s i) -> foldM f l s = foldM h l s.
Proof. intros S f h l. induction l as [|a l IH]; intros s H; auto. cbn [foldM]. rewrite H by (left; auto). destruct (h s a); cbn [bind]; auto. apply IH. intros. apply H. right; auto. Qed.
Lemma firstn_next : forall (A : Type) (l : list A) k x, nth_error l k = Some x -> firstn (S k) l = firstn k l ++ [x].
Proof. intros A l. induction l as [|y l IH]; intros [|k] x E; cbn in E; try discriminate; [injection E as ->; auto|]. cbn [firstn app]. f_equal. apply IH. auto. Qed.
Lemma skipn_next : forall (A : Type) (l : list A) k x, nth_error l k = Some x -> skipn k l = x :: skipn (S k) l.
Proof. intros A l. induction l as [|y l IH]; intros [|k] x E; cbn in E; try discriminate; [injection E as ->; auto|]. cbn [skipn]. apply IH. auto. Qed.
Lemma fill_loop : forall (fi : list (list T * list nat)) w o, same_lengths fi -> length o = 3 * length fi ->
  (forall l x, l < length fi -> nth_error fi l = Some x -> off3 (length fi) o l (length (snd x)) (before fi l) (before fi l)) ->
  forall k, k <= length fi ->
  foldM (fill_body (mkLUnary T (Some w) (length fi) o [] []) fi) (seq 0 k) (repeat 0 (length (concat (map fst fi))), repeat zero (length (concat (map fst fi)))) =
  Ret (concat (map snd (firstn k fi)) ++ repeat 0 (length (concat (map fst (skipn k fi)))), concat (map fst (firstn k fi)) ++ repeat zero (length (concat (map fst (skipn k fi))))).
Proof.
  intros fi w o SM Lo OO. induction k as [|k IH]; intros Hk; [reflexivity|]. rewrite foldM_S, IH by lia. cbn [bind Nat.add].
  destruct (nth_error fi k) as [x|] eqn:Ex; [|apply nth_error_None in Ex; lia].
  assert (Lx : length (snd x) = length (fst x)). { unfold same_lengths in SM. rewrite Forall_forall in SM. apply SM. eapply nth_error_In; eauto. }
  destruct (OO k x ltac:(lia) Ex) as (O1 & O2 & O3).
  rewrite (skipn_next _ _ _ _ Ex), (firstn_next _ _ _ _ Ex), !map_app, !concat_app. cbn [map concat]. rewrite !app_nil_r, app_length, !repeat_app.
  unfold fill_body. unfold numWeightsForL at 1. cbn [lu_offsets lu_numberOfLabels]. rewrite Nat.mul_0_l, Nat.add_0_l, (rd_nth _ _ k 0) by lia. rewrite O1. cbn [bind].
  assert (LB : length (concat (map snd (firstn k fi))) = before fi k) by (unfold before; apply same_concat; apply same_firstn; auto).
  rewrite (foldM_ext _ _ (fun (st : list nat * list T) i => y <- rd (snd x) i ;; a <- wr (fst st) (length (concat (map snd (firstn k fi))) + i) y ;; z <- rd (fst x) i ;; b <- wr (snd st) (length (concat (map snd (firstn k fi))) + i) z ;; Ret (a, b))).
  - rewrite <- !app_assoc. apply (fill_two nat T (snd x) (repeat 0 (length (fst x)))); rewrite ?repeat_length; auto.
  - intros [a b] i Hi. unfold featureOffset. cbn [lu_offsets lu_numberOfLabels fst snd]. rewrite (rd_nth _ _ _ 0) by lia. rewrite O3. cbn [bind]. rewrite (rd_Ret _ _ _ _ Ex). cbn [bind]. rewrite LB. reflexivity.
Qed.

(** The constructor accepts exactly the right arguments. *)
Lemma lunary_new_ok : forall w (fi : list (list T * list nat)),
  (same_lengths fi -> NoDup (concat (map snd fi)) -> exists f, lunary_new T zero w fi = Ret f /\ lu_weights T f = Some w /\ lu_numberOfLabels T f = length fi /\
     lu_weightIds T f = concat (map snd fi) /\ lu_features T f = concat (map fst fi) /\ length (lu_offsets T f) = 3 * length fi /\
     forall l x, l < length fi -> nth_error fi l = Some x -> off3 (length fi) (lu_offsets T f) l (length (snd x)) (before fi l) (before fi l)) /\
  (~ (same_lengths fi /\ NoDup (concat (map snd fi))) -> lunary_new T zero w fi = Throw).
Proof.
  intros w fi. destruct (offsets_loop fi (length fi)) as [H1 H2]; auto. rewrite firstn_all in *.
  assert (G : same_lengths fi -> exists o, length o = 3 * length fi /\ (forall l x, l < length fi -> nth_error fi l = Some x -> off3 (length fi) o l (length (snd x)) (before fi l) (before fi l)) /\
    lunary_new T zero w fi = (idSet <- ras_insert_range nat Nat.ltb [] (concat (map snd fi)) ;; if negb (length idSet =? length (concat (map snd fi))) then Throw else Ret (mkLUnary T (Some w) (length fi) o (concat (map snd fi)) (concat (map fst fi))))).
  { intros SM. destruct (H1 SM) as (o & E & Lo & OO). exists o. split; auto. split; auto. unfold lunary_new. change (foldM _ (seq 0 (length fi)) (repeat 0 (length fi * 3), 0, 0)) with (foldM (off_body fi) (seq 0 (length fi)) (repeat 0 (length fi * 3), 0, 0)). rewrite E. cbn [bind].
    pose proof (fill_loop fi w o SM Lo OO (length fi) (le_n _)) as FL. rewrite firstn_all, skipn_all in FL. cbn [map concat length repeat] in FL. rewrite !app_nil_r in FL. rewrite before_all.
    change (foldM _ (seq 0 (length fi)) (repeat 0 (length (concat (map fst fi))), _)) with (foldM (fill_body (mkLUnary T (Some w) (length fi) o [] []) fi) (seq 0 (length fi)) (repeat 0 (length (concat (map fst fi))), repeat zero (length (concat (map fst fi))))).
    rewrite FL. cbn [bind]. reflexivity. }
  destruct (ras_dup (concat (map snd fi))) as (s & Es & Hs). split.
  - intros SM ND. destruct (G SM) as (o & Lo & OO & E). rewrite E, Es. cbn [bind]. rewrite (proj2 Hs ND), Nat.eqb_refl. cbn [negb]. eexists. split; [reflexivity|]. cbn [lu_weights lu_numberOfLabels lu_weightIds lu_features lu_offsets]. auto 10.
  - intros N. destruct (Forall_dec _ (fun x : list T * list nat => Nat.eq_dec (length (snd x)) (length (fst x))) fi) as [SM|SM].
    + destruct (G SM) as (o & _ & _ & E). rewrite E, Es. cbn [bind]. destruct (Nat.eqb_spec (length s) (length (concat (map snd fi)))) as [Q|Q]; cbn [negb]; auto. exfalso. apply N. split; auto. apply Hs. auto.
    + unfold lunary_new. change (foldM _ (seq 0 (length fi)) (repeat 0 (length fi * 3), 0, 0)) with (foldM (off_body fi) (seq 0 (length fi)) (repeat 0 (length fi * 3), 0, 0)). rewrite H2; auto.
Qed.
Lemma concat_part : forall (A : Type) (ls : list (list A)) l x, nth_error ls l = Some x -> firstn (length x) (skipn (length (concat (firstn l ls))) (concat ls)) = x.
Proof.
  intros A ls. induction ls as [|y ls IH]; intros [|l] x E; cbn in E; try discriminate.
  - injection E as ->. cbn [firstn concat length skipn]. rewrite firstn_app, firstn_all, Nat.sub_diag. cbn. apply app_nil_r.
  - cbn [firstn concat]. rewrite app_length. rewrite <- (IH l x E) at 2. f_equal. rewrite skipn_app, skipn_all2 by lia. cbn [app]. f_equal. lia.
Qed.

(** ** The same features for all labels *)
Definition shared_body (n first cols : nat) (weightIds : list (list nat)) (st : list nat * list nat * nat) (l : nat) : outcome (list nat * list nat * nat) :=
  let '(o, ids, wOffset) := st in
  o <- put_offsets n o l cols wOffset 0 ;;
  ids <- foldM (fun ids wi => row <- rd weightIds (l - first) ;; id <- rd row wi ;; wr ids (wOffset + wi) id) (seq 0 cols) ids ;;
  Ret (o, ids, wOffset + cols).
Lemma concat_rows : forall (ls : list (list nat)) cols, Forall (fun r => length r = cols) ls -> length (concat ls) = length ls * cols.
Proof. intros ls cols H. induction H as [|r ls Hr H IH]; auto. cbn [concat length]. rewrite app_length, IH. lia. Qed.
Lemma Forall_firstn' : forall (A : Type) (P : A -> Prop) l k, Forall P l -> Forall P (firstn k l).
Proof. intros A P l k H. rewrite Forall_forall in *. intros x Hx. apply H. rewrite <- (firstn_skipn k l). apply in_or_app. auto. Qed.
Lemma shared_loop : forall n first cols weightIds o, first + length weightIds = n -> Forall (fun r => length r = cols) weightIds -> length o = 3 * n ->
  forall k, k <= length weightIds -> exists o', foldM (shared_body n first cols weightIds) (seq first k) (o, repeat 0 (length weightIds * cols), 0) =
    Ret (o', concat (firstn k weightIds) ++ repeat 0 ((length weightIds - k) * cols), k * cols) /\ length o' = 3 * n /\
    (forall i, i < k -> off3 n o' (first + i) cols (i * cols) 0) /\ forall l a b c, l < first -> off3 n o l a b c -> off3 n o' l a b c.
Proof.
  intros n first cols wi o Hn HR Lo. induction k as [|k IH]; intros Hk.
  - exists o. cbn [seq foldM firstn concat app]. rewrite Nat.sub_0_r. split; auto. split; auto. split; [intros; lia|auto].
  - destruct IH as (o1 & E & L1 & H1 & H2); [lia|]. rewrite foldM_S, E. cbn [bind shared_body].
    destruct (put_ok n o1 (first + k) cols (k * cols) 0 L1) as (o2 & E2 & L2 & P & R); [lia|]. rewrite E2. cbn [bind].
    destruct (nth_error wi k) as [r|] eqn:Er; [|apply nth_error_None in Er; lia].
    assert (Lr : length r = cols). { rewrite Forall_forall in HR. apply HR. eapply nth_error_In; eauto. }
    assert (LC : length (concat (firstn k wi)) = k * cols). { rewrite concat_rows with (cols := cols) by (apply Forall_firstn'; auto). rewrite firstn_length_le by lia. auto. }
    replace ((length wi - k) * cols) with (cols + (length wi - S k) * cols) by nia. rewrite repeat_app.
    pose proof (fill_row nat r (repeat 0 cols) (concat (firstn k wi)) (repeat 0 ((length wi - S k) * cols)) (rd r)) as FR. rewrite repeat_length, LC, Lr in FR.
    rewrite (foldM_ext _ _ (fun l i => x <- rd r i ;; wr l (k * cols + i) x)).
    + rewrite FR by auto. cbn [bind]. exists o2. rewrite (firstn_next _ _ _ _ Er), concat_app. cbn [concat]. rewrite app_nil_r, <- app_assoc. split; [do 2 f_equal; lia|]. split; auto. split.
      * intros i Hi. destruct (Nat.eq_dec i k) as [->|N]; auto. apply R; [lia|lia|]. apply H1. lia.
      * intros l a b c Hl O. apply R; [lia|lia|]. apply H2; auto.
    + intros s i Hi. replace (first + k - first) with k by lia. rewrite (rd_Ret _ _ _ _ Er). reflexivity.
Qed.
(** What the constructor makes, and when it refuses. *)
Lemma lunary_shared_ok : forall w n rows cols weightIds features (const : bool), length weightIds = rows -> Forall (fun r => length r = cols) weightIds ->
  let first := if const then 1 else 0 in
  (rows + first = n -> length features = cols -> exists f, lunary_shared T w n rows cols weightIds features const = Ret f /\ lu_weights T f = Some w /\ lu_numberOfLabels T f = n /\
     lu_weightIds T f = concat weightIds /\ lu_features T f = features /\ length (lu_offsets T f) = 3 * n /\
     (forall i, i < rows -> off3 n (lu_offsets T f) (first + i) cols (i * cols) 0) /\ (const = true -> off3 n (lu_offsets T f) 0 0 0 0)) /\
  (~ (rows + first = n /\ length features = cols) -> lunary_shared T w n rows cols weightIds features const = Throw).
Proof.
  intros w n rows cols wi features const Lr HR first. split.
  - intros Hn Hf. unfold lunary_shared. fold first. rewrite Hn, Hf, !Nat.eqb_refl. cbn [negb].
    assert (G : exists o, (if const then put_offsets n (repeat 0 (n * 3)) 0 0 0 0 else Ret (repeat 0 (n * 3))) = Ret o /\ length o = 3 * n /\ (const = true -> off3 n o 0 0 0 0)).
    { destruct const; [|eexists; split; [reflexivity|]; rewrite repeat_length; split; [lia|discriminate]]. destruct (put_ok n (repeat 0 (n * 3)) 0 0 0 0) as (o & E & L & P & _); [rewrite repeat_length; lia|unfold first in *; lia|]. exists o. auto. }
    destruct G as (o & E & Lo & OO). rewrite E. cbn [bind]. destruct (shared_loop n first cols wi o) with (k := rows) as (o' & E' & L' & H1 & H2); auto; [lia|lia|].
    change (foldM _ (seq first (n - first)) _) with (foldM (shared_body n first cols wi) (seq first (n - first)) (o, repeat 0 (rows * cols), 0)). replace (n - first) with rows by lia. rewrite Lr in E'. rewrite E'. cbn [bind].
    eexists. split; [reflexivity|]. cbn [lu_weights lu_numberOfLabels lu_weightIds lu_features lu_offsets]. split; auto. split; auto. split; [rewrite <- Lr, firstn_all, Nat.sub_diag; cbn; apply app_nil_r|].
    split; auto. split; auto. split; auto. intros C. apply H2; auto. subst const. unfold first. lia.
  - intros N. unfold lunary_shared. fold first. destruct (Nat.eqb_spec (rows + first) n); cbn [negb]; auto. destruct (Nat.eqb_spec (length features) cols); cbn [negb]; auto. exfalso. auto.
Qed.

(** ** Serialization *)
Lemma lpotts_bytes : forall (f : lpotts T) ix vs dst, length (lp_feat T f) = length (lp_weightIDs T f) ->
  lpotts_serialize T f = Ret (lp_numLabels T f :: length (lp_feat T f) :: lp_weightIDs T f, lp_feat T f) /\
  lpotts_deserialize T ((lp_numLabels T f :: length (lp_feat T f) :: lp_weightIDs T f) ++ ix) (lp_feat T f ++ vs) dst = Ret (mkLPotts T (lp_weights T dst) (lp_numLabels T f) (lp_weightIDs T f) (lp_feat T f)).
Proof.
  intros f ix vs dst L. split.
  - unfold lpotts_serialize, lpotts_weightIndex. rewrite !mapM_rd_all. reflexivity.
  - unfold lpotts_deserialize. change (rd ((lp_numLabels T f :: length (lp_feat T f) :: lp_weightIDs T f) ++ ix) 0) with (Ret (lp_numLabels T f)).
    change (rd ((lp_numLabels T f :: length (lp_feat T f) :: lp_weightIDs T f) ++ ix) 1) with (Ret (length (lp_feat T f))). cbn [bind]. rewrite mapM_rd_front. cbn [bind].
    pose proof (mapM_rd_mid nat (lp_weightIDs T f) [lp_numLabels T f; length (lp_feat T f)] ix) as M. rewrite <- L in M.
    change (mapM (fun i => rd ((lp_numLabels T f :: length (lp_feat T f) :: lp_weightIDs T f) ++ ix) (S (S i))) (seq 0 (length (lp_feat T f)))) with (mapM (fun i => rd ([lp_numLabels T f; length (lp_feat T f)] ++ lp_weightIDs T f ++ ix) (length [lp_numLabels T f; length (lp_feat T f)] + i)) (seq 0 (length (lp_feat T f)))).
    rewrite M. reflexivity.
Qed.
Lemma lunary_bytes : forall (f : lunary T) ix vs dst, length (lu_offsets T f) = 3 * lu_numberOfLabels T f ->
  let l := lu_numberOfLabels T f :: length (lu_weightIds T f) :: length (lu_features T f) :: lu_offsets T f ++ lu_weightIds T f in
  lunary_serialize T f = Ret (l, lu_features T f) /\
  lunary_deserialize T (l ++ ix) (lu_features T f ++ vs) dst = Ret (mkLUnary T (lu_weights T dst) (lu_numberOfLabels T f) (lu_offsets T f) (lu_weightIds T f) (lu_features T f)).
Proof.
  intros f ix vs dst L l. split.
  - unfold lunary_serialize. rewrite !mapM_rd_all. reflexivity.
  - unfold lunary_deserialize, l. set (hd := [lu_numberOfLabels T f; length (lu_weightIds T f); length (lu_features T f)]).
    replace ((lu_numberOfLabels T f :: length (lu_weightIds T f) :: length (lu_features T f) :: lu_offsets T f ++ lu_weightIds T f) ++ ix) with (hd ++ lu_offsets T f ++ lu_weightIds T f ++ ix) by (unfold hd; cbn; rewrite <- app_assoc; auto).
    change (rd (hd ++ lu_offsets T f ++ lu_weightIds T f ++ ix) 0) with (Ret (lu_numberOfLabels T f)). change (rd (hd ++ lu_offsets T f ++ lu_weightIds T f ++ ix) 1) with (Ret (length (lu_weightIds T f))). change (rd (hd ++ lu_offsets T f ++ lu_weightIds T f ++ ix) 2) with (Ret (length (lu_features T f))).
    cbn [bind]. pose proof (mapM_rd_mid nat (lu_offsets T f) hd (lu_weightIds T f ++ ix)) as M1. change (length hd) with 3 in M1. rewrite <- L, M1. cbn [bind].
    pose proof (mapM_rd_mid nat (lu_weightIds T f) (hd ++ lu_offsets T f) ix) as M2. rewrite <- app_assoc, app_length in M2. change (length hd) with 3 in M2. rewrite M2. cbn [bind]. rewrite mapM_rd_front. reflexivity.
Qed.
End Build.
