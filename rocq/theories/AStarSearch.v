(** Proofs about A* search: best-first search with any heuristic that never is worse than what it bounds. *)
From Verif Require Import Base Values GmView ShapeSpec ShapeProofs GmViewSpec AStarModel AStarSpec.
From Coq Require Import Permutation.
Open Scope nat_scope.

(** ** Lists *)
Lemma nth_firstn_lt : forall (A : Type) (l : list A) n i d, i < n -> nth i (firstn n l) d = nth i l d.
Proof. induction l as [|a l IH]; intros [|n] [|i] d H; cbn; auto; try lia. apply IH. lia. Qed.
Lemma nth_error_skip : forall (A : Type) (l : list A) n i, nth_error (skipn n l) i = nth_error l (n + i).
Proof. induction l as [|a l IH]; intros [|n] i; cbn; auto. destruct i; auto. Qed.
Lemma NoDup_app_right : forall (A : Type) (l1 l2 : list A), NoDup (l1 ++ l2) -> NoDup l2.
Proof. induction l1 as [|a l IH]; intros l2 H; cbn in H; auto. inversion H; auto. Qed.
Lemma foldM_ind : forall (A B : Type) (f : B -> A -> outcome B) (P : nat -> B -> Prop) l s,
  P 0 s -> (forall k a t, nth_error l k = Some a -> P k t -> exists t', f t a = Ret t' /\ P (S k) t') ->
  exists t, foldM f l s = Ret t /\ P (length l) t.
Proof.
  intros A B f P l. revert P. induction l as [|a l IH]; intros P s H0 HS; cbn [foldM length].
  - eauto.
  - destruct (HS 0 a s eq_refl H0) as (t & E & H). rewrite E. cbn [bind].
    apply (IH (fun k => P (S k)) t H). intros k b u Hk. apply (HS (S k)); auto.
Qed.
Lemma mapM_all : forall (A B : Type) (f : A -> outcome B) (h : A -> B) l, (forall a, In a l -> f a = Ret (h a)) -> mapM f l = Ret (map h l).
Proof. induction l as [|a l IH]; intros H; cbn; auto. rewrite (H a) by (left; auto). cbn. rewrite IH; auto. intros b Hb. apply H. right; auto. Qed.

Fixpoint leqb (a b : list nat) : bool :=
  match a, b with [], [] => true | x :: a, y :: b => (x =? y) && leqb a b | _, _ => false end.
Lemma leqb_eq : forall a b, leqb a b = true <-> a = b.
Proof.
  induction a as [|x a IH]; intros [|y b]; cbn; split; try discriminate; auto.
  - intros H. apply andb_true_iff in H as [H1 H2]. apply Nat.eqb_eq in H1. apply IH in H2. congruence.
  - intros H. injection H as -> ->. rewrite Nat.eqb_refl. apply IH; auto.
Qed.
Lemma leqb_snoc : forall a b x y, length a = length b -> leqb (a ++ [x]) (b ++ [y]) = leqb a b && (x =? y).
Proof.
  induction a as [|u a IH]; intros [|v b] x y H; cbn in *; try discriminate; auto.
  - rewrite andb_true_r. auto.
  - rewrite IH by lia. rewrite andb_assoc. auto.
Qed.
Lemma firstn_snoc : forall (A : Type) (l : list A) k d, k < length l -> firstn (S k) l = firstn k l ++ [nth k l d].
Proof. induction l as [|a l IH]; intros [|k] d H; cbn in *; try lia; auto. rewrite (IH k d) by lia. auto. Qed.
Lemma remove_at_perm : forall (A : Type) (l : list A) k a, nth_error l k = Some a -> Permutation l (a :: remove_at k l).
Proof.
  intros A l k a H. unfold remove_at. destruct (nth_error_split l k H) as (l1 & l2 & E & H1). subst l k.
  rewrite firstn_app, Nat.sub_diag, firstn_all, firstn_O, app_nil_r. rewrite skipn_app. rewrite skipn_all2 by lia.
  replace (S (length l1) - length l1) with 1 by lia. cbn. symmetry. apply Permutation_middle.
Qed.
Lemma perm_concat_map : forall (A B : Type) (f : A -> list B) l l', Permutation l l' -> Permutation (concat (map f l)) (concat (map f l')).
Proof.
  intros A B f l l' H. induction H; cbn; auto.
  - apply Permutation_app_head; auto.
  - rewrite !app_assoc. apply Permutation_app_tail, Permutation_app_comm.
  - eapply perm_trans; eauto.
Qed.
Lemma filter_split2 : forall (A : Type) (P Q : A -> bool) l, Permutation (filter P l) (filter (fun x => P x && Q x) l ++ filter (fun x => P x && negb (Q x)) l).
Proof.
  induction l as [|a l IH]; cbn; auto. destruct (P a); cbn [andb]; auto. destruct (Q a); cbn [negb app]; auto.
  - apply Permutation_cons_app; auto.
Qed.
Lemma filter_none : forall (A : Type) (P : A -> bool) l, (forall x, In x l -> P x = false) -> filter P l = [].
Proof. induction l as [|a l IH]; intros H; cbn; auto. rewrite (H a) by (left; auto). apply IH. intros x Hx. apply H. right; auto. Qed.
Lemma filter_ext_In : forall (A : Type) (P Q : A -> bool) l, (forall x, In x l -> P x = Q x) -> filter P l = filter Q l.
Proof. induction l as [|a l IH]; intros H; cbn; auto. rewrite (H a) by (left; auto). rewrite IH; auto. intros x Hx. apply H. right; auto. Qed.
Lemma filter_classes : forall (A : Type) (f : A -> nat) k l (P : A -> bool), (forall x, In x l -> f x < k) ->
  Permutation (filter P l) (concat (map (fun i => filter (fun x => P x && (f x =? i)) l) (seq 0 k))).
Proof.
  intros A f. induction k as [|j IHj]; intros l P H.
  - cbn. destruct l as [|a l]; auto. exfalso. specialize (H a (or_introl eq_refl)). lia.
  - rewrite seq_S, map_app, concat_app. cbn [map concat Nat.add]. rewrite app_nil_r.
    eapply perm_trans; [apply (filter_split2 _ P (fun x => negb (f x =? j)))|]. apply Permutation_app.
    + assert (X : forall Q : A -> bool, filter (fun x => Q x && negb (f x =? j)) l = filter Q (filter (fun x => negb (f x =? j)) l)).
      { clear. intros Q. induction l as [|a l IH]; cbn; auto. destruct (f a =? j); cbn; destruct (Q a); cbn; rewrite ?IH; auto. }
      rewrite X. eapply perm_trans; [apply IHj|].
      * intros x Hx. apply filter_In in Hx as [Hx E]. specialize (H x Hx). apply negb_true_iff, Nat.eqb_neq in E. lia.
      * apply Permutation_refl'. f_equal. apply map_ext_in. intros i Hi. apply in_seq in Hi. rewrite <- X. apply filter_ext_In. intros x _.
        destruct (P x); cbn; auto. destruct (Nat.eqb_spec (f x) i), (Nat.eqb_spec (f x) j); cbn; auto; lia.
    + apply Permutation_refl'. apply filter_ext_In. intros x _. rewrite negb_involutive. auto.
Qed.

Lemma in_shape_lt : forall sh y v, in_shape sh y -> v < length sh -> nth v y 0 < nth v sh 0.
Proof.
  intros sh y v H. revert v. induction H as [|a b y' l Hab H IH]; intros v Hv; cbn in Hv; [lia|].
  destruct v; cbn; auto. apply IH. lia.
Qed.
Lemma in_shape_nths : forall sh y, length y = length sh -> (forall v, v < length sh -> nth v y 0 < nth v sh 0) -> in_shape sh y.
Proof.
  induction sh as [|a sh IH]; intros [|b y] HL H; cbn in *; try discriminate; constructor.
  - apply (H 0). lia.
  - apply IH; [lia|]. intros v Hv. apply (H (S v)). lia.
Qed.
Lemma concat_len_ge : forall (A B : Type) (f : A -> list B) l, (forall a, In a l -> f a <> []) -> length l <= length (concat (map f l)).
Proof.
  induction l as [|a l IH]; intros H; cbn; auto. rewrite app_length. specialize (IH (fun b Hb => H b (or_intror Hb))).
  destruct (f a) eqn:E; [exfalso; apply (H a); auto; left; auto|]. cbn. lia.
Qed.

Section Search.
Variable T : Type.
Variable ok : T -> Prop.
Variable OP : oper T.
Variable ACC : accum T.
Variable zero : T.
Variable g : gmv T.
Variable solve : gmv T -> nat -> nat -> outcome (list nat).
Variable pick : nat -> list (anode T) -> nat.
Variable stop : nat -> bool.
Hypothesis PO : positive (v_labels g).
Let n := length (v_labels g).
(** The members that do not change. *)
Variable P : aparam T.
Variable tr : list bool.
Variable opt : list (option (nat * list T)).
Let order := p_nodeOrder P.
Hypothesis OR : Permutation order (seq 0 n).
Let lab v := nth v (v_labels g) 0.
Variable R : list nat -> T.

Definition pre (p y : list nat) : bool := leqb (map (fun v => nth v y 0) (firstn (length p) order)) p.
Definition valid (p : list nat) : Prop := length p <= n /\ forall k, k < length p -> nth k p 0 < lab (nth k order 0).
Definition static (s : astar T) : Prop := as_param s = P /\ as_isTreeFactor s = tr /\ as_optimizedFactor s = opt.
Definition le (a b : T) : Prop := a_bop ACC b a = false.

(** What the heuristic has to do. *)
Definition sound_bound (p : list nat) (b : list T) : Prop :=
  length b = lab (nth (length p) order 0) /\
  forall j y d, j < length b -> labeling g y -> pre (p ++ [j]) y = true ->
    ok (nth j b d) /\ le (nth j b d) (R y) /\ (S (length p) = n -> nth j b d = R y).

Lemma order_len : length order = n.
Proof. rewrite (Permutation_length OR). apply seq_length. Qed.
Lemma order_lt : forall k, k < n -> nth k order 0 < n.
Proof. intros k H. assert (X : In (nth k order 0) order) by (apply nth_In; rewrite order_len; auto). apply (Permutation_in _ OR) in X. apply in_seq in X. lia. Qed.
Lemma order_nodup : NoDup order.
Proof. eapply Permutation_NoDup; [apply Permutation_sym, OR|apply seq_NoDup]. Qed.
Lemma order_has : forall v, v < n -> exists k, k < n /\ nth k order 0 = v.
Proof.
  intros v H. assert (X : In v order) by (apply (Permutation_in _ (Permutation_sym OR)), in_seq; lia).
  destruct (In_nth _ _ 0 X) as (k & Hk & E). rewrite order_len in Hk. eauto.
Qed.
Lemma lab_pos : forall v, v < n -> 0 < lab v.
Proof. intros v H. unfold lab. apply (proj1 (Forall_forall _ _) PO). apply nth_In. auto. Qed.

Definition L : list (list nat) := map (coord_of (v_labels g)) (seq 0 (size_of (v_labels g))).
Lemma L_in : forall y, In y L <-> labeling g y.
Proof.
  intros y. unfold L, labeling. rewrite in_map_iff. split.
  - intros (k & <- & _). apply coord_of_in_shape; auto.
  - intros H. exists (index_of (v_labels g) y). split; [apply coord_of_index; auto|]. apply in_seq. pose proof (index_of_lt _ _ H). lia.
Qed.
Lemma L_nodup : NoDup L.
Proof.
  unfold L. apply NoDup_map_in; [apply seq_NoDup|]. intros a b Ha Hb E. apply in_seq in Ha, Hb.
  rewrite <- (index_of_coord (v_labels g) a), <- (index_of_coord (v_labels g) b) by (auto; lia). congruence.
Qed.
Lemma L_len : length L = size_of (v_labels g). Proof. unfold L. rewrite map_length, seq_length. auto. Qed.
Definition compl (p : list nat) : list (list nat) := filter (pre p) L.

Lemma lab_lt : forall y v, labeling g y -> v < n -> nth v y 0 < lab v.
Proof. intros y v H Hv. apply in_shape_lt; auto. Qed.
Lemma pre_snoc : forall p i y, length p < n -> pre (p ++ [i]) y = pre p y && (nth (nth (length p) order 0) y 0 =? i).
Proof.
  intros p i y H. unfold pre. rewrite app_length. cbn [length]. rewrite Nat.add_1_r.
  rewrite (firstn_snoc _ order (length p) 0) by (rewrite order_len; auto). rewrite map_app. cbn [map].
  apply leqb_snoc. rewrite map_length, firstn_length, order_len. lia.
Qed.
Lemma compl_split : forall p, length p < n ->
  Permutation (compl p) (concat (map (fun i => compl (p ++ [i])) (seq 0 (lab (nth (length p) order 0))))).
Proof.
  intros p H. unfold compl. eapply perm_trans; [apply (filter_classes _ (fun y => nth (nth (length p) order 0) y 0) (lab (nth (length p) order 0)))|].
  - intros y Hy. apply L_in in Hy. apply lab_lt; auto. apply order_lt; auto.
  - apply Permutation_refl'. f_equal. apply map_ext. intros i. apply filter_ext_In. intros y _. rewrite pre_snoc by auto. auto.
Qed.
Lemma compl_nil : compl [] = L.
Proof. unfold compl. induction L as [|a l IH]; cbn; auto. rewrite IH. auto. Qed.
Lemma pre_iff : forall p y, length p <= n -> (pre p y = true <-> forall k, k < length p -> nth (nth k order 0) y 0 = nth k p 0).
Proof.
  intros p y H. unfold pre. rewrite leqb_eq. split.
  - intros E k Hk. pose proof (f_equal (fun l => nth k l (nth 0 y 0)) E) as X. cbv beta in X.
    rewrite (map_nth (fun v => nth v y 0)), nth_firstn_lt, (nth_indep p _ 0) in X; auto.
  - intros E. apply (nth_ext _ _ (nth 0 y 0) 0); [rewrite map_length, firstn_length, order_len; lia|].
    intros k Hk. rewrite map_length, firstn_length, order_len in Hk. rewrite (map_nth (fun v => nth v y 0)). rewrite nth_firstn_lt by lia. apply E. lia.
Qed.

(** A labeling that continues a prefix. *)
Definition fill (p : list nat) : list nat :=
  fold_left (fun x k => upd x (nth k order 0) (nth k p 0)) (seq 0 (length p)) (repeat 0 n).
Lemma fill_spec : forall p m, m <= n -> let x := fold_left (fun x k => upd x (nth k order 0) (nth k p 0)) (seq 0 m) (repeat 0 n) in
  length x = n /\ (forall k, k < m -> nth (nth k order 0) x 0 = nth k p 0) /\ (forall k, m <= k -> k < n -> nth (nth k order 0) x 0 = 0).
Proof.
  intros p. induction m as [|m IH]; intros Hm x.
  - cbn in x. subst x. rewrite repeat_length. split; auto. split; [lia|]. intros k _ Hk. apply nth_repeat.
  - subst x. rewrite seq_S, fold_left_app. cbn [fold_left Nat.add]. destruct (IH ltac:(lia)) as (L1 & L2 & L3).
    set (x := fold_left _ _ _) in *. assert (ND : forall k, k < n -> nth k order 0 = nth m order 0 -> k = m).
    { intros k Hk E. apply (proj1 (NoDup_nth order 0) order_nodup); auto; rewrite order_len; lia. }
    split; [rewrite length_upd; auto|]. split.
    + intros k Hk. destruct (Nat.eq_dec k m) as [->|Ne].
      * apply nth_upd_eq. rewrite L1. apply order_lt. lia.
      * rewrite nth_upd_neq; [apply L2; lia|]. intros E. apply Ne, ND; auto; lia.
    + intros k H1 H2. rewrite nth_upd_neq; [apply L3; lia|]. intros E. specialize (ND k H2 (eq_sym E)). lia.
Qed.
Lemma fill_ok : forall p, valid p -> labeling g (fill p) /\ pre p (fill p) = true.
Proof.
  intros p [Hl Hv]. destruct (fill_spec p (length p) Hl) as (L1 & L2 & L3). fold (fill p) in *. split.
  - apply in_shape_nths; auto. fold n. intros v Hv'. destruct (order_has v Hv') as (k & Hk & <-). destruct (lt_dec k (length p)).
    + rewrite L2 by auto. apply Hv; auto.
    + rewrite L3 by lia. apply (lab_pos (nth k order 0)); auto.
  - apply pre_iff; auto.
Qed.
Lemma compl_some : forall p, valid p -> compl p <> [].
Proof. intros p H. destruct (fill_ok p H) as [H1 H2]. intros E. assert (X : In (fill p) (compl p)) by (apply filter_In; split; auto; apply L_in; auto). rewrite E in X. auto. Qed.
Lemma labels_of_fill : forall p, length p = n -> labels_of T g order p = Ret (fill p).
Proof.
  intros p H. unfold labels_of, fill. fold n. rewrite H.
  assert (X : forall m, m <= n -> foldM (fun x k => v <- rd order k;; l <- rd p k;; wr x v l) (seq 0 m) (repeat 0 n) = Ret (fold_left (fun x k => upd x (nth k order 0) (nth k p 0)) (seq 0 m) (repeat 0 n))).
  { induction m as [|m IH]; intros Hm; auto. rewrite seq_S, foldM_app, fold_left_app, IH by lia. cbn [bind foldM fold_left Nat.add].
    rewrite (rd_nth _ order m 0) by (rewrite order_len; lia). cbn [bind]. rewrite (rd_nth _ p m 0) by lia. cbn [bind].
    rewrite wr_Ret; auto. rewrite (proj1 (fill_spec p m ltac:(lia))). apply order_lt. lia. }
  apply X. auto.
Qed.
Lemma pre_full : forall p y, length p = n -> labeling g y -> pre p y = true -> valid p -> y = fill p.
Proof.
  intros p y H HL HP HV. destruct (fill_ok p HV) as [H1 H2].
  assert (Ly : length y = n) by (apply in_shape_length; auto). assert (Lf : length (fill p) = n) by (apply in_shape_length; auto).
  apply (nth_ext _ _ 0 0); [lia|]. intros v Hv. rewrite Ly in Hv. destruct (order_has v Hv) as (k & Hk & <-).
  rewrite (proj1 (pre_iff p y ltac:(lia)) HP) by lia. rewrite (proj1 (pre_iff p _ ltac:(lia)) H2) by lia. auto.
Qed.
Lemma compl_full : forall p, length p = n -> valid p -> compl p = [fill p].
Proof.
  intros p H HV. apply Permutation_length_1_inv. apply NoDup_Permutation.
  - constructor; [intros []|constructor].
  - apply NoDup_filter, L_nodup.
  - intros y. split.
    + intros [<-|[]]. destruct (fill_ok p HV). apply filter_In. split; auto. apply L_in. auto.
    + intros Hy. apply filter_In in Hy as [H1 H2]. apply L_in in H1. left. symmetry. apply pre_full; auto.
Qed.

Hypothesis SL : search_laws ok OP ACC.
Hypothesis PK : good_pick ok ACC pick.
Hypothesis ZK : ok zero.
Hypothesis N0 : 0 < n.
Hypothesis HS : 100 * size_of (v_labels g) <= 99 * p_maxHeapSize P.
Hypothesis RK : forall y, labeling g y -> ok (R y).
Variable F0 : nat.
Hypothesis HE : forall fuel s p, F0 <= fuel -> static s -> valid p -> length p < n ->
  exists b, heuristic_of T OP ACC zero g solve fuel s p = Ret b /\ sound_bound p b.

(** ** The invariant *)
Definition node_ok (a : anode T) : Prop := valid (an_conf a) /\ ok (an_value a) /\
  (forall y, labeling g y -> pre (an_conf a) y = true -> le (an_value a) (R y)) /\
  (length (an_conf a) = n -> an_value a = R (fill (an_conf a))).
Definition root : anode T := mkANode [] zero.
Definition cover (l : list (anode T)) : list (list nat) := concat (map (fun a => compl (an_conf a)) l).
Definition Inv (s : astar T) (F : list (list nat)) : Prop :=
  static s /\ Permutation (cover (as_array s) ++ F) L /\ (as_array s = [root] \/ Forall node_ok (as_array s)).
Definition BI (s : astar T) (F : list (list nat)) : Prop := forall y, labeling g y -> ~ In y F -> le (as_belowBound s) (R y).
Definition sorted (F : list (list nat)) : Prop := forall k x y, nth_error F k = Some x -> labeling g y -> ~ In y (firstn k F) -> le (R x) (R y).
Fixpoint tsize (l : list nat) : nat := match l with [] => 1 | a :: r => S (a * tsize r) end.
Definition weight (p : list nat) : nat := tsize (skipn (length p) (map lab order)).
Definition measure (l : list (anode T)) : nat := fold_right (fun a m => weight (an_conf a) + m) 0 l.

Lemma root_valid : valid []. Proof. split; cbn; lia. Qed.
Lemma inv_valid : forall s F, Inv s F -> Forall (fun a => valid (an_conf a)) (as_array s).
Proof.
  intros s F (_ & _ & [->|H]).
  - constructor; [apply root_valid|constructor].
  - eapply Forall_impl; [|exact H]. intros a (X & _). auto.
Qed.
Lemma inv_ok : forall s F, Inv s F -> Forall (fun a => ok (an_value a)) (as_array s).
Proof.
  intros s F (_ & _ & [->|H]).
  - constructor; [exact ZK|constructor].
  - eapply Forall_impl; [|exact H]. intros a (_ & X & _). auto.
Qed.
Lemma inv_small : forall s F, Inv s F -> length (as_array s) <= size_of (v_labels g).
Proof.
  intros s F I. rewrite <- L_len. destruct I as (S1 & S2 & S3) eqn:EI. rewrite <- (Permutation_length S2). rewrite app_length.
  assert (X : length (as_array s) <= length (cover (as_array s))); [|lia].
  apply concat_len_ge. intros a Ha. apply compl_some. pose proof (inv_valid s F I) as V. rewrite Forall_forall in V. auto.
Qed.
Lemma inv_no_prune : forall s F, Inv s F -> 99 * p_maxHeapSize (as_param s) <? 100 * length (as_array s) = false.
Proof. intros s F I. apply Nat.ltb_ge. pose proof (inv_small s F I). destruct I as ((-> & _) & _). lia. Qed.
Lemma inv_front : forall s F, Inv s F -> as_array s <> [] ->
  exists a, front T pick s = Ret a /\ nth_error (as_array s) (pick (as_time s) (as_array s)) = Some a /\
            Forall (fun b => le (an_value a) (an_value b)) (as_array s).
Proof.
  intros s F I Hn. destruct (PK (as_time s) (as_array s) Hn (inv_ok s F I)) as (a & E & H). exists a.
  split; [apply rd_Ret; auto|]. auto.
Qed.
Lemma measure_cons : forall a l, measure (a :: l) = weight (an_conf a) + measure l. Proof. reflexivity. Qed.
Lemma measure_app : forall l1 l2, measure (l1 ++ l2) = measure l1 + measure l2.
Proof. induction l1 as [|a l IH]; intros l2; [reflexivity|]. rewrite <- app_comm_cons, !measure_cons, IH. lia. Qed.
Lemma measure_perm : forall l1 l2, Permutation l1 l2 -> measure l1 = measure l2.
Proof. intros l1 l2 H. induction H; rewrite ?measure_cons; auto; lia. Qed.
Lemma weight_pos : forall p, 0 < weight p.
Proof. intros p. unfold weight. destruct (skipn _ _); cbn; lia. Qed.
Lemma weight_split : forall p, length p < n -> weight p = S (lab (nth (length p) order 0) * tsize (skipn (S (length p)) (map lab order))).
Proof.
  intros p H. unfold weight. destruct (skipn_split _ (map lab order) (length p)) as (w & E); [rewrite map_length, order_len; auto|].
  rewrite E. cbn [tsize]. do 3 f_equal. assert (X : nth_error (skipn (length p) (map lab order)) 0 = Some w) by (rewrite E; auto).
  rewrite nth_error_skip, Nat.add_0_r, nth_error_map in X. rewrite (nth_error_nth' order 0) in X by (rewrite order_len; auto). cbn in X. congruence.
Qed.
Lemma cover_app : forall l1 l2, cover (l1 ++ l2) = cover l1 ++ cover l2.
Proof. intros. unfold cover. rewrite map_app, concat_app. auto. Qed.
Lemma static_with : forall s l, static s -> static (with_array T s l).
Proof. intros s l H. exact H. Qed.

Lemma push_children : forall p b m s, m <= length b ->
  exists s', foldM (fun s i => v <- rd b i ;; Ret (with_array T s (as_array s ++ [mkANode (p ++ [i]) v]))) (seq 0 m) s = Ret s' /\
    as_param s' = as_param s /\ as_isTreeFactor s' = as_isTreeFactor s /\ as_optimizedFactor s' = as_optimizedFactor s /\
    as_optConf s' = as_optConf s /\ as_belowBound s' = as_belowBound s /\
    as_array s' = as_array s ++ map (fun i => mkANode (p ++ [i]) (nth i b zero)) (seq 0 m).
Proof.
  intros p b. induction m as [|m IH]; intros s Hm.
  - exists s. cbn. rewrite app_nil_r. auto 10.
  - rewrite seq_S, foldM_app. destruct (IH s ltac:(lia)) as (s' & E & H1 & H2 & H3 & H4 & H5 & H6). rewrite E. cbn [bind foldM Nat.add].
    rewrite (rd_nth _ b m zero) by lia. cbn [bind]. eexists. split; [reflexivity|]. cbn. rewrite H6, map_app. cbn [map]. rewrite app_assoc. auto 10.
Qed.

Lemma expand_ok : forall fuel s F a, F0 <= fuel -> Inv s F -> nth_error (as_array s) (pick (as_time s) (as_array s)) = Some a ->
  length (an_conf a) < n ->
  exists s', expand T OP ACC zero g solve pick fuel s = Ret s' /\ Inv s' F /\ Forall node_ok (as_array s') /\ as_array s' <> [] /\
    measure (as_array s') < measure (as_array s) /\ as_optConf s' = as_optConf s /\ as_belowBound s' = as_belowBound s.
Proof.
  intros fuel s F a HF I Ha Hc. unfold expand. rewrite (inv_no_prune s F I). unfold front at 1. rewrite (rd_Ret _ _ _ _ Ha). cbn [bind].
  assert (VA : valid (an_conf a)).
  { pose proof (inv_valid s F I) as V. rewrite Forall_forall in V. apply V. eapply nth_error_In; eauto. }
  destruct I as (S1 & S2 & S3).
  destruct (HE fuel (pop T pick s) (an_conf a) HF S1 VA Hc) as (b & EB & LB & SB). rewrite EB. cbn [bind].
  assert (EP : as_param (pop T pick s) = P) by (apply S1). rewrite EP. fold order.
  rewrite (rd_nth _ order _ 0) by (rewrite order_len; auto). cbn [bind]. set (v := nth (length (an_conf a)) order 0) in *.
  assert (Hv : v < n) by (apply order_lt; auto).
  rewrite (rd_nth _ (v_labels g) _ 0) by auto. cbn [bind]. fold (lab v). rewrite <- LB.
  destruct (push_children (an_conf a) b (length b) (pop T pick s) (le_n _)) as (s' & E & H1 & H2 & H3 & H4 & H5 & H6).
  rewrite E. exists s'. split; auto.
  set (kids := map (fun i => mkANode (an_conf a ++ [i]) (nth i b zero)) (seq 0 (length b))) in *.
  set (rest := remove_at (pick (as_time s) (as_array s)) (as_array s)).
  assert (A : as_array s' = rest ++ kids) by exact H6.
  assert (PR : Permutation (as_array s) (a :: rest)) by (apply remove_at_perm; auto).
  assert (KO : Forall node_ok kids).
  { apply Forall_forall. intros c Hc'. apply in_map_iff in Hc' as (i & <- & Hi). apply in_seq in Hi. cbn.
    assert (VC : valid (an_conf a ++ [i])).
    { destruct VA as [V1 V2]. split; [rewrite app_length; cbn; lia|]. intros k Hk. rewrite app_length in Hk. cbn in Hk.
      destruct (lt_dec k (length (an_conf a))).
      - rewrite app_nth1 by auto. apply V2; auto.
      - assert (k = length (an_conf a)) by lia. subst k. rewrite app_nth2, Nat.sub_diag by lia. cbn. fold v. lia. }
    destruct (fill_ok _ VC) as [FL FP].
    split; [exact VC|]. split; [apply (SB i _ zero ltac:(lia) FL FP)|]. split.
    - intros y Hy Py. apply (SB i y zero); auto. lia.
    - intros Hn. cbn [an_conf] in Hn. rewrite app_length in Hn. cbn in Hn. apply (SB i _ zero ltac:(lia) FL FP). lia. }
  assert (RO : Forall node_ok rest).
  { destruct S3 as [Er|Fo].
    - rewrite Er in PR. apply Permutation_length in PR. cbn in PR. destruct rest; [constructor|discriminate].
    - rewrite PR in Fo. inversion Fo; auto. }
  assert (AO : Forall node_ok (as_array s')) by (rewrite A; apply Forall_app; auto).
  assert (KL : length kids = lab v) by (unfold kids; rewrite map_length, seq_length; auto).
  assert (KC : Permutation (cover kids) (compl (an_conf a))).
  { symmetry. eapply perm_trans; [apply compl_split; auto|]. apply Permutation_refl'. unfold cover, kids. rewrite map_map. cbn. fold v. rewrite <- LB. auto. }
  split; [|split; [exact AO|split; [|split; [|split]]]].
  - split; [|split; [|right; exact AO]].
    + unfold static in *. rewrite H1, H2, H3. exact S1.
    + eapply perm_trans; [|exact S2]. apply Permutation_app_tail. rewrite A, cover_app.
      eapply perm_trans; [apply Permutation_app_comm|]. eapply perm_trans; [apply Permutation_app_tail, KC|].
      symmetry. apply (perm_concat_map _ _ (fun a => compl (an_conf a)) _ _ PR).
  - rewrite A. pose proof (lab_pos v Hv). destruct kids; cbn in KL; [lia|]. intros X. apply app_eq_nil in X as [_ X]. discriminate.
  - rewrite (measure_perm _ _ PR). rewrite A, measure_app. cbn [measure fold_right]. fold (measure rest). rewrite (weight_split _ Hc). fold v.
    assert (X : forall m, measure (map (fun i => mkANode (an_conf a ++ [i]) (nth i b zero)) (seq 0 m)) = m * tsize (skipn (S (length (an_conf a))) (map lab order))).
    { induction m as [|m IHm]; auto. rewrite seq_S, map_app, measure_app, IHm. cbn [map measure fold_right an_conf]. unfold weight. rewrite app_length. cbn [length]. rewrite Nat.add_1_r. lia. }
    unfold kids. rewrite X, LB. fold v. lia.
  - exact H4.
  - exact H5.
Qed.

Lemma le_trans : forall a b c, ok a -> ok b -> ok c -> le a b -> le b c -> le a c.
Proof. unfold le. intros a b c Ka Kb Kc H1 H2. apply (sl_negtrans _ _ _ SL c b a); auto. Qed.
Lemma le_refl : forall a, ok a -> le a a.
Proof. unfold le. intros a Ka. apply (sl_irrefl _ _ _ SL); auto. Qed.
(** The front of the heap bounds what has not been found. *)
Lemma front_bound : forall s F a y, Inv s F -> Forall node_ok (as_array s) -> nth_error (as_array s) (pick (as_time s) (as_array s)) = Some a ->
  Forall (fun b => le (an_value a) (an_value b)) (as_array s) -> labeling g y -> ~ In y F -> le (an_value a) (R y).
Proof.
  intros s F a y (S1 & S2 & _) NO Ha Hb HL HN.
  assert (X : In y (cover (as_array s) ++ F)) by (apply (Permutation_in _ (Permutation_sym S2)), L_in; auto).
  apply in_app_or in X as [X|X]; [|tauto]. unfold cover in X. apply in_concat in X as (l & Hl & Hy). apply in_map_iff in Hl as (b & <- & Hb').
  apply filter_In in Hy as [_ Hy]. rewrite Forall_forall in NO, Hb. pose proof (NO b Hb') as (V & K & M & _).
  apply (le_trans _ (an_value b)); auto. apply (NO a). eapply nth_error_In; eauto.
Qed.
Lemma with_bound_inv : forall s F b, Inv s F -> Inv (with_bound T s b) F. Proof. intros s F b H. exact H. Qed.

Lemma descend_ok : forall fuel s F c e, F0 + measure (as_array s) <= fuel -> Inv s F -> as_array s <> [] -> BI s F ->
  exists s' c' e', descend T OP ACC zero g solve pick stop fuel s c e = Ret (s', c', e') /\ Inv s' F /\ BI s' F /\ as_array s' <> [] /\
    measure (as_array s') <= measure (as_array s) /\ as_optConf s' = as_optConf s /\
    (e' = false -> exists a, nth_error (as_array s') (pick (as_time s') (as_array s')) = Some a /\ n <= length (an_conf a)) /\
    (e = false -> (forall c, stop c = false) -> e' = false).
Proof.
  induction fuel as [|fuel IH]; intros s F c e HF I Hn B.
  all: destruct (inv_front s F I Hn) as (a & E & Ea & Hb).
  all: cbn [descend]; rewrite E; cbn [bind]; fold n.
  all: destruct (Nat.ltb_spec (length (an_conf a)) n) as [Hlt|Hge]; cbn [negb orb].
  all: try (exists s, c, e; split; [reflexivity|]; split; [exact I|]; split; [exact B|]; split; [exact Hn|]; split; [auto|]; split; [auto|]; split; [intros _; exists a; auto|auto]; fail).
  - exfalso. pose proof (measure_perm _ _ (remove_at_perm _ _ _ _ Ea)) as M. rewrite measure_cons in M. pose proof (weight_pos (an_conf a)). lia.
  - destruct e; [exists s, c, true; split; [reflexivity|]; split; [exact I|]; split; [exact B|]; split; [exact Hn|]; split; [auto|]; split; [auto|]; split; intros; discriminate|].
    destruct (expand_ok (S fuel) s F a ltac:(lia) I Ea Hlt) as (s1 & E1 & I1 & NO & Hn1 & M1 & O1 & B1). rewrite E1. cbn [bind].
    destruct (inv_front s1 F I1 Hn1) as (b & Eb & Eb' & Hb'). rewrite Eb. cbn [bind].
    destruct (IH (with_bound T s1 (an_value b)) F (S c) (stop c)) as (s' & c' & e' & E' & J1 & J2 & J3 & J4 & J5 & J6 & J7).
    + cbn [with_bound as_array]. lia.
    + exact I1.
    + exact Hn1.
    + intros y Hy Hnin. cbn. eapply front_bound; eauto.
    + exists s', c', e'. split; [exact E'|]. split; [exact J1|]. split; [exact J2|]. split; [exact J3|]. cbn [with_bound as_array] in J4. split; [lia|].
      split; [rewrite J5; exact O1|]. split; [exact J6|]. intros _ HS'. apply J7; auto.
Qed.

Definition done (s : astar T) (t : termination) (F : list (list nat)) : Prop :=
  (t = UNKNOWN /\ as_array s = [] /\ Inv s F) \/
  (t = NORMAL /\ length (as_optConf s) = p_numberOfOpt P /\ as_array s <> [] /\ Inv s F) \/
  (t = NORMAL /\ exists xs x, as_optConf s = xs ++ [x] /\ a_bop ACC (p_objectiveBound P) (R x) = true).
Definition last_bound (s : astar T) : Prop := as_optConf s = [] \/ exists xs x, as_optConf s = xs ++ [x] /\ as_belowBound s = R x.

Lemma search_stopped : forall fuel s c, search T OP ACC zero g solve pick stop (S fuel) s c true = Ret (s, UNKNOWN).
Proof. intros. cbn [search]. rewrite orb_true_r. auto. Qed.

Lemma search_ok : forall fuel s F c, F0 + S (measure (as_array s)) <= fuel -> Inv s (F ++ as_optConf s) -> BI s (F ++ as_optConf s) ->
  sorted (F ++ as_optConf s) -> length (as_optConf s) <= p_numberOfOpt P ->
  exists s' t, search T OP ACC zero g solve pick stop fuel s c false = Ret (s', t) /\
    static s' /\ NoDup (F ++ as_optConf s') /\ Forall (labeling g) (F ++ as_optConf s') /\ sorted (F ++ as_optConf s') /\ BI s' (F ++ as_optConf s') /\
    length (as_optConf s') <= p_numberOfOpt P /\
    ((forall c, stop c = false) -> done s' t (F ++ as_optConf s') /\ (last_bound s -> last_bound s')).
Proof.
  induction fuel as [|fuel IH]; intros s F c HF I B SO HL; [lia|].
  assert (ND : forall s, Inv s (F ++ as_optConf s) -> NoDup (F ++ as_optConf s) /\ Forall (labeling g) (F ++ as_optConf s)).
  { intros u (_ & U & _). pose proof (Permutation_NoDup (Permutation_sym U) L_nodup) as X.
    split; [eapply NoDup_app_right; eauto|]. apply Forall_forall. intros y Hy. apply L_in. apply (Permutation_in _ U). apply in_or_app. auto. }
  assert (DB : forall u G x, as_optConf (with_opt T u G) = G /\ as_belowBound (with_bound T u x) = x) by (intros; split; reflexivity).
  cbn [search]. rewrite orb_false_r. destruct (Nat.eqb_spec (length (as_array s)) 0) as [E0|E0].
  { exists s, UNKNOWN. split; [reflexivity|]. destruct (ND s I). split; [apply I|]. split; auto. split; auto. split; auto. split; auto. split; auto.
    intros _. split; auto. left. split; auto. split; auto. destruct (as_array s); auto; discriminate. }
  assert (Hn : as_array s <> []) by (destruct (as_array s); [cbn in E0; lia|discriminate]).
  assert (EP : as_param s = P) by apply I. rewrite EP.
  destruct (Nat.eqb_spec (p_numberOfOpt P) (length (as_optConf s))) as [E1|E1].
  { exists s, NORMAL. split; [reflexivity|]. destruct (ND s I). split; [apply I|]. split; auto. split; auto. split; auto. split; auto. split; auto.
    intros _. split; auto. right. left. auto. }
  destruct (descend_ok (S fuel) s _ c false ltac:(lia) I Hn B) as (s1 & c1 & e1 & D & I1 & B1 & Hn1 & M1 & O1 & C1 & N1).
  rewrite D. cbn [bind]. destruct (inv_front s1 _ I1 Hn1) as (a & Ef & Ea & Hb). rewrite Ef. cbn [bind]. fold n.
  assert (PR : Permutation (as_array s1) (a :: remove_at (pick (as_time s1) (as_array s1)) (as_array s1))) by (apply remove_at_perm; auto).
  assert (MR : measure (as_array (pop T pick s1)) < measure (as_array s1)).
  { unfold pop. cbn [with_array as_array]. rewrite (measure_perm _ _ PR). rewrite measure_cons. pose proof (weight_pos (an_conf a)). lia. }
  rewrite <- O1 in I1, B1.
  destruct (Nat.leb_spec n (length (an_conf a))) as [Hc|Hc].
  - (* a complete entry *)
    assert (NO : Forall node_ok (as_array s1)).
    { destruct I1 as (_ & _ & [Er|Fo]); auto. pose proof (nth_error_In _ _ Ea) as Z0. rewrite Er in Z0. destruct Z0 as [<-|[]]. cbn in Hc. lia. }
    assert (NA : node_ok a) by (rewrite Forall_forall in NO; apply NO; eapply nth_error_In; eauto). destruct NA as (VA & KA & AA & XA).
    assert (Hc' : length (an_conf a) = n) by (destruct VA; lia). specialize (XA Hc').
    cbn [with_bound as_param as_optConf]. assert (EP1 : as_param s1 = P) by apply I1. rewrite EP1. fold order. rewrite labels_of_fill by auto. cbn [bind].
    set (x := fill (an_conf a)) in *. destruct (fill_ok _ VA) as [LX PX]. fold x in LX, PX.
    set (s2 := with_opt T (with_bound T s1 (an_value a)) (as_optConf s1 ++ [x])).
    assert (FB : forall y, labeling g y -> ~ In y (F ++ as_optConf s1) -> le (an_value a) (R y)).
    { intros y Hy Hnin. eapply front_bound; eauto. }
    assert (OK2 : as_optConf s2 = as_optConf s ++ [x]) by (unfold s2; cbn; rewrite O1; auto).
    assert (B2 : BI s2 (F ++ as_optConf s2)).
    { intros y Hy Hnin. cbn. apply FB; auto. intros Z0. apply Hnin. rewrite OK2, O1 in *. apply in_app_or in Z0. apply in_or_app. destruct Z0; auto. right. apply in_or_app; auto. }
    assert (I2 : Inv (pop T pick s2) (F ++ as_optConf s2)).
    { destruct I1 as (Z1 & Z2 & Z3). split; [exact Z1|]. split.
      - unfold pop, s2. cbn [with_array with_opt with_bound as_array as_optConf as_time]. eapply perm_trans; [|exact Z2].
        symmetry. eapply perm_trans; [apply Permutation_app_tail, (perm_concat_map _ _ (fun a => compl (an_conf a)) _ _ PR)|].
        cbn [map concat]. rewrite compl_full by auto. fold x. cbn [app]. rewrite !app_assoc. apply Permutation_cons_append.
      - right. unfold pop, s2. cbn [with_array with_opt with_bound as_array as_time]. rewrite PR in NO. inversion NO; auto. }
    assert (S2 : sorted (F ++ as_optConf s2)).
    { rewrite OK2, app_assoc. intros k y z Hk Hz Hnin. rewrite O1 in FB. destruct (lt_dec k (length (F ++ as_optConf s))) as [Hlt|Hge].
      - rewrite nth_error_app1 in Hk by auto. rewrite firstn_app in Hnin. replace (k - length (F ++ as_optConf s)) with 0 in Hnin by lia. cbn [firstn] in Hnin. rewrite app_nil_r in Hnin. eapply SO; eauto.
      - rewrite nth_error_app2 in Hk by lia. destruct (k - length (F ++ as_optConf s)) as [|[|]] eqn:Ek; cbn in Hk; try discriminate. injection Hk as <-.
        rewrite firstn_app, Ek in Hnin. cbn [firstn] in Hnin. rewrite app_nil_r, firstn_all2 in Hnin by lia. rewrite <- XA. apply FB; auto. }
    assert (L2 : length (as_optConf s2) <= p_numberOfOpt P) by (rewrite OK2, app_length; cbn; lia).
    change (as_param s2) with (as_param s1). rewrite EP1.
    destruct (a_bop ACC (p_objectiveBound P) (an_value a)) eqn:EO.
    + exists s2, NORMAL. split; [reflexivity|]. destruct (ND (pop T pick s2) I2) as [Q1 Q2]. split; [apply I1|]. split; [exact Q1|]. split; [exact Q2|]. split; [exact S2|]. split; [exact B2|]. split; [exact L2|].
      intros _. split.
      * right. right. split; auto. exists (as_optConf s), x. split; auto. rewrite <- XA. auto.
      * intros _. right. exists (as_optConf s), x. split; auto.
    + destruct e1.
      * assert (X : exists f, fuel = S f) by (exists (pred fuel); lia). destruct X as (f & ->). rewrite search_stopped. exists (pop T pick s2), UNKNOWN. split; [reflexivity|].
        destruct (ND (pop T pick s2) I2) as [Q1 Q2]. split; [apply I1|]. split; [exact Q1|]. split; [exact Q2|]. split; [exact S2|]. split; [exact B2|]. split; [exact L2|].
        intros NS. specialize (N1 eq_refl NS). discriminate.
      * destruct (IH (pop T pick s2) F (S c1)) as (s' & t & E' & J1 & J2 & J3 & J4 & J5 & J6 & J7).
        -- change (as_array (pop T pick s2)) with (as_array (pop T pick s1)). lia.
        -- exact I2.
        -- exact B2.
        -- exact S2.
        -- exact L2.
        -- exists s', t. split; [exact E'|]. split; [exact J1|]. split; [exact J2|]. split; [exact J3|]. split; [exact J4|]. split; [exact J5|]. split; [exact J6|].
           intros NS. destruct (J7 NS) as [K1 K2]. split; [exact K1|]. intros _. apply K2. right. exists (as_optConf s), x. split; [exact OK2|exact XA].
  - (* stopped *)
    destruct e1; [|destruct (C1 eq_refl) as (a' & Ea' & Hc''); rewrite Ea in Ea'; injection Ea' as <-; lia].
    assert (X : exists f, fuel = S f) by (exists (pred fuel); lia). destruct X as (f & ->). rewrite search_stopped. exists (pop T pick s1), UNKNOWN. split; [reflexivity|].
    destruct (ND s1 I1) as [Q1 Q2]. split; [apply I1|]. split; [exact Q1|]. split; [exact Q2|].
    change (as_optConf (pop T pick s1)) with (as_optConf s1). split; [rewrite O1; exact SO|]. split; [exact B1|]. split; [rewrite O1; exact HL|].
    intros NS. specialize (N1 eq_refl NS). discriminate.
Qed.
End Search.
