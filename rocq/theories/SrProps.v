From Coq Require Import Sorted Permutation.
From Verif Require Import Base SrModel.
Open Scope nat_scope.

(** Specification: a list in increasing order, repetitions allowed. *)
Definition increasing (l : list Z) : Prop := forall i j, i < j -> j < length l -> (nth i l 0 <= nth j l 0)%Z.

Lemma find_loop l x n k : (forall j, k <= j < n -> j < length l) -> increasing l -> k <= n -> exists r, sr_find_loop l x (seq k (n - k)) = Ret r /\
  match r with Some p => k <= p < n /\ nth p l 0%Z = x /\ (forall j, k <= j < p -> nth j l 0%Z <> x) | None => forall j, k <= j < n -> nth j l 0%Z <> x end.
Proof.
  remember (n - k) as m eqn:Em. revert k Em. induction m as [|m IH]; intros k Em B Inc K.
  - exists None. split; [reflexivity|]. intros j J. lia.
  - cbn [seq sr_find_loop]. rewrite (rd_nth _ l k 0%Z) by (apply B; lia). cbn [bind]. destruct (x <? nth k l 0)%Z eqn:L.
    + exists None. split; [reflexivity|]. apply Z.ltb_lt in L. intros j J. destruct (Nat.eq_dec j k) as [->|NE]; [lia|]. assert (X := Inc k j ltac:(lia) (B j J)). lia.
    + apply Z.ltb_ge in L. destruct (x =? nth k l 0)%Z eqn:E.
      * apply Z.eqb_eq in E. exists (Some k). split; [reflexivity|]. split; [lia|]. split; [auto|]. intros j J. lia.
      * apply Z.eqb_neq in E. destruct (IH (S k)) as (r & R & C); [lia|intros j J; apply B; lia|exact Inc|lia|]. exists r. split; [exact R|].
        destruct r as [p|].
        -- destruct C as (C1 & C2 & C3). split; [lia|]. split; [exact C2|]. intros j J. destruct (Nat.eq_dec j k) as [->|NE]; [auto|]. apply C3. lia.
        -- intros j J. destruct (Nat.eq_dec j k) as [->|NE]; [auto|]. apply C. lia.
Qed.

(** In a sequence in increasing order an element is found iff it is there, at its first position. *)
Theorem C76_find l n x : increasing l -> 0 < n <= length l -> exists r, sr_find l n x = Ret r /\
  match r with Some p => p < n /\ nth p l 0%Z = x /\ (forall j, j < p -> nth j l 0%Z <> x) | None => forall j, j < n -> nth j l 0%Z <> x end.
Proof.
  intros Inc N. unfold sr_find. destruct (n =? 0) eqn:E; [apply Nat.eqb_eq in E; lia|]. rewrite (rd_nth _ l (n - 1) 0%Z) by lia. cbn [bind].
  destruct (nth (n - 1) l 0 <? x)%Z eqn:L.
  - exists None. split; [reflexivity|]. apply Z.ltb_lt in L. intros j J. destruct (Nat.eq_dec j (n - 1)) as [->|NE]; [lia|]. assert (X := Inc j (n - 1) ltac:(lia) ltac:(lia)). lia.
  - destruct (find_loop l x n 0) as (r & R & C); [intros; lia|exact Inc|lia|]. rewrite Nat.sub_0_r in R. exists r. split; [exact R|].
    destruct r as [p|]; [destruct C as (C1 & C2 & C3); split; [lia|]; split; [exact C2|]; intros j J; apply C3; lia|intros j J; apply C; lia].
Qed.
Print Assumptions C76_find.

(** In any order, what is found is there. *)
Theorem C76_find_sound l n x p : sr_find l n x = Ret (Some p) -> p < n /\ nth_error l p = Some x.
Proof.
  unfold sr_find. destruct (n =? 0); [discriminate|]. intros H. apply bind_inv in H. destruct H as (y & _ & H). destruct (y <? x)%Z; [discriminate|].
  assert (G : forall ps, sr_find_loop l x ps = Ret (Some p) -> In p ps /\ nth_error l p = Some x).
  { induction ps as [|q ps IH]; cbn [sr_find_loop]; [discriminate|]. intros K. apply bind_inv in K. destruct K as (z & Z & K). destruct (x <? z)%Z; [discriminate|].
    destruct (x =? z)%Z eqn:E; [injection K as <-; apply Z.eqb_eq in E; subst; split; [left; reflexivity|apply rd_inv; exact Z]|]. destruct (IH K). split; [right; assumption|assumption]. }
  destruct (G _ H) as [I X]. apply in_seq in I. split; [lia|exact X].
Qed.
Print Assumptions C76_find_sound.

Lemma sorted_loop l : forall t, sr_sorted_loop t l = true <-> increasing (t :: l).
Proof.
  induction l as [|x l IH]; intros t; cbn [sr_sorted_loop].
  - split; [|reflexivity]. intros _ i j I J. cbn in J. lia.
  - destruct (x <? t)%Z eqn:E.
    + apply Z.ltb_lt in E. split; [discriminate|]. intros H. specialize (H 0 1 ltac:(lia) ltac:(cbn; lia)). cbn in H. lia.
    + apply Z.ltb_ge in E. rewrite IH. split.
      * intros H i j I J. destruct j as [|j]; [lia|]. cbn [nth]. destruct i as [|i]; [|cbn [nth]; apply H; [lia|cbn in *; lia]].
        cbn [nth]. destruct j as [|j]; [exact E|]. assert (X := H 0 (S j) ltac:(lia) ltac:(cbn in *; lia)). cbn [nth] in *. lia.
      * intros H i j I J. exact (H (S i) (S j) ltac:(lia) ltac:(cbn in *; lia)).
Qed.
(** The test for increasing order is exact. *)
Theorem C76_sorted l : sr_sorted l = true <-> increasing l.
Proof.
  destruct l as [|x [|y l]].
  - split; [|reflexivity]. intros _ i j I J. cbn in J. lia.
  - split; [|reflexivity]. intros _ i j I J. cbn in J. lia.
  - unfold sr_sorted. rewrite sorted_loop. split; intros H i j I J.
    + exact (H (S i) (S j) ltac:(lia) ltac:(cbn in *; lia)).
    + destruct j as [|j]; [lia|]. destruct i as [|i]; [|exact (H i j ltac:(lia) ltac:(cbn in *; lia))].
      destruct j as [|j]; [cbn; lia|]. exact (H 0 (S j) ltac:(lia) ltac:(cbn in *; lia)).
Qed.
Print Assumptions C76_sorted.

Lemma zip_nth a : forall b, length a <= length b -> map (fun i => (nth i a 0%Z, nth i b 0%Z)) (seq 0 (length a)) = combine a b.
Proof. induction a as [|x a IH]; intros [|y b] L; cbn in *; try lia; auto. f_equal. rewrite <- seq_shift, map_map. apply IH. lia. Qed.
Lemma foldM_upto' {B} (f : B -> nat -> outcome B) (P : nat -> B -> Prop) m s :
  P 0 s -> (forall k t, k < m -> P k t -> exists t', f t k = Ret t' /\ P (S k) t') -> exists t, foldM f (seq 0 m) s = Ret t /\ P m t.
Proof.
  intros H0 HS. induction m as [|m IH]; [exists s; auto|]. destruct IH as (t & R & Pt); [intros; apply HS; auto|].
  rewrite seq_S, foldM_app, R. cbn. destruct (HS m t ltac:(lia) Pt) as (t' & E & P'). rewrite E. exists t'. auto.
Qed.
Lemma upd_split (l : list Z) k v w : k < length l -> length w = k -> upd (w ++ skipn k l) k v = (w ++ [v]) ++ skipn (S k) l.
Proof.
  intros K <-. revert l K. induction w as [|x w IH]; intros l K; [destruct l; [cbn in K; lia|reflexivity]|]. destruct l as [|y l]; [cbn in K; lia|].
  cbn [length skipn app upd]. f_equal. apply IH. cbn in K. lia.
Qed.
Lemma firstn_S_nth {A} (l : list A) k d : k < length l -> firstn (S k) l = firstn k l ++ [nth k l d].
Proof. revert k. induction l as [|x l IH]; intros k K; [cbn in K; lia|]. destruct k as [|k]; [reflexivity|]. cbn in K. change (firstn (S (S k)) (x :: l)) with (x :: firstn (S k) l). rewrite IH by lia. reflexivity. Qed.
Lemma combine_split_ (r : list (Z * Z)) : combine (map fst r) (map snd r) = r.
Proof. induction r as [|[x y] r IH]; cbn; congruence. Qed.

Lemma combine_more (x y z : list Z) : length x = length y -> combine x (y ++ z) = combine x y.
Proof. revert y. induction x as [|a x IH]; intros [|b y] E; cbn in *; try lia; auto. rewrite IH by lia. reflexivity. Qed.

(** Sorting two sequences by the first: for every sorting of pairs, the first is in increasing order, the pairs are the same, and what the second has more is left alone. *)
Theorem C76_double sort a b : (forall ps, Permutation ps (sort ps) /\ increasing (map fst (sort ps))) -> length a <= length b ->
  exists a' b', sr_double sort a b = Ret (a', b') /\ increasing a' /\ length a' = length a /\ Permutation (combine a b) (combine a' b') /\
    length b' = length b /\ skipn (length a) b' = skipn (length a) b.
Proof.
  intros HS L. unfold sr_double. rewrite (mapM_Ret _ _ _ (fun i => (nth i a 0%Z, nth i b 0%Z))).
  2: { intros i I. apply in_seq in I. rewrite (rd_nth _ a i 0%Z), (rd_nth _ b i 0%Z) by lia. reflexivity. }
  cbn [bind]. rewrite zip_nth by exact L. destruct (HS (combine a b)) as [HP HI]. set (r := sort (combine a b)) in *. cbv zeta.
  assert (Lr : length r = length a) by (rewrite <- (Permutation_length HP), combine_length; lia).
  destruct (foldM_upto' (fun '(a, b) i => p <- rd r i ;; a <- wr a i (fst p) ;; b <- wr b i (snd p) ;; Ret (a, b))
    (fun k t => t = (map fst (firstn k r) ++ skipn k a, map snd (firstn k r) ++ skipn k b)) (length a) (a, b)) as (t & R & Pt); [reflexivity| |].
  { intros k t K ->. rewrite (rd_nth _ r k (0%Z, 0%Z)) by lia. cbn [bind].
    assert (X : length (firstn k r) = k) by (rewrite firstn_length; lia).
    rewrite wr_Ret by (rewrite app_length, map_length, skipn_length; lia). cbn [bind]. rewrite wr_Ret by (rewrite app_length, map_length, skipn_length; lia). cbn [bind].
    eexists. split; [reflexivity|]. rewrite !upd_split by (rewrite ?map_length; lia). rewrite (firstn_S_nth r k (0%Z, 0%Z)) by lia. rewrite !map_app. reflexivity. }
  rewrite R, Pt. replace (firstn (length a) r) with r by (rewrite <- Lr; symmetry; apply firstn_all). replace (skipn (length a) a) with (@nil Z) by (symmetry; apply skipn_all). rewrite app_nil_r.
  eexists; eexists. split; [reflexivity|]. split; [exact HI|]. split; [rewrite map_length; exact Lr|]. split; [|split].
  - rewrite combine_more by (rewrite !map_length; reflexivity). rewrite combine_split_. exact HP.
  - rewrite app_length, map_length, skipn_length. lia.
  - rewrite skipn_app, map_length, Lr, Nat.sub_diag. cbn [skipn]. rewrite skipn_all2 by (rewrite map_length; lia). reflexivity.
Qed.
Print Assumptions C76_double.

(** A sorting of pairs as C76_double wants it, and sequences for the other theorems. *)
Fixpoint ins (p : Z * Z) (l : list (Z * Z)) : list (Z * Z) := match l with [] => [p] | q :: l' => if (fst p <=? fst q)%Z then p :: l else q :: ins p l' end.
Definition isort (l : list (Z * Z)) : list (Z * Z) := fold_right ins [] l.
Lemma increasing_cons x l : increasing (x :: l) <-> (forall y, In y l -> (x <= y)%Z) /\ increasing l.
Proof.
  split.
  - intros H. split; [|intros i j I J; exact (H (S i) (S j) ltac:(lia) ltac:(cbn; lia))]. intros y Y. destruct (In_nth _ _ 0%Z Y) as (j & J & E).
    assert (X := H 0 (S j) ltac:(lia) ltac:(cbn; lia)). cbn [nth] in X. lia.
  - intros [H K] i j I J. destruct j as [|j]; [lia|]. cbn in J. destruct i as [|i]; cbn [nth]; [apply H, nth_In; lia|apply K; lia].
Qed.
Example C76_double_example : (forall ps, Permutation ps (isort ps) /\ increasing (map fst (isort ps))) /\ sr_double isort [3; 1; 2]%Z [30; 10; 20; 7]%Z = Ret ([1; 2; 3]%Z, [10; 20; 30; 7]%Z).
Proof.
  split; [|reflexivity].
  assert (P : forall p l, Permutation (p :: l) (ins p l)).
  { intros p l. induction l as [|q l IH]; [reflexivity|]. cbn. destruct (fst p <=? fst q)%Z; [reflexivity|]. rewrite perm_swap. constructor. exact IH. }
  induction ps as [|p ps [IH1 IH2]]; [split; [constructor|intros i j I J; cbn in J; lia]|]. cbn [isort fold_right]. fold (isort ps). split; [rewrite <- P; constructor; exact IH1|].
  revert IH2. generalize (isort ps). clear - P. intros l. induction l as [|q l IH]; intros H; [apply increasing_cons; split; [intros y []|exact H]|]. cbn [ins].
  cbn [map] in H. apply increasing_cons in H. destruct H as [H1 H2]. destruct (fst p <=? fst q)%Z eqn:E.
  - apply Z.leb_le in E. cbn [map]. apply increasing_cons. split; [|apply increasing_cons; auto]. intros y [<-|Y]; [exact E|]. specialize (H1 y Y). lia.
  - apply Z.leb_gt in E. cbn [map]. apply increasing_cons. split; [|auto]. intros y Y. apply (Permutation_in _ (Permutation_sym (Permutation_map fst (P p l)))) in Y.
    destruct Y as [<-|Y]; [lia|auto].
Qed.
Example C76_find_example : increasing [2; 5; 5; 9]%Z /\ sr_find [2; 5; 5; 9]%Z 4 5%Z = Ret (Some 1) /\ sr_find [2; 5; 5; 9]%Z 4 6%Z = Ret None.
Proof. split; [apply C76_sorted; reflexivity|split; reflexivity]. Qed.

(** Refuted: that a search in a sequence without elements finds nothing (it is undefined), and that in any order what is there is found. *)
Theorem C76_find_refuted : (forall l x, sr_find l 0 x = Undef) /\ sr_find [5; 3; 9]%Z 3 3%Z = Ret None.
Proof. split; reflexivity. Qed.
Print Assumptions C76_find_refuted.

(** The variable with three values is in exactly one of three states, whatever integer it is made of. *)
Theorem C76_three z : let t := tr_of z in
  (tr_bool t = true <-> z <> 0%Z /\ z <> (-1)%Z) /\ (tr_not t = true <-> z = 0%Z) /\ (tr_maybe t = true <-> z = (-1)%Z) /\
  (tr_eq_bool t true = tr_bool t) /\ (tr_eq_bool t false = tr_not t).
Proof.
  intros t. unfold t, tr_of, tr_bool, tr_not, tr_maybe, tr_eq_bool. destruct (z =? -1)%Z eqn:E; [apply Z.eqb_eq in E; subst; cbn; repeat split; intros; try discriminate; lia|].
  apply Z.eqb_neq in E. destruct (z =? 0)%Z eqn:G; [apply Z.eqb_eq in G; subst; cbn; repeat split; intros; try discriminate; lia|].
  apply Z.eqb_neq in G. cbn. repeat split; intros; try discriminate; try assumption; lia.
Qed.
Print Assumptions C76_three.

(** After any history of &=: false iff it was false or false was given; true iff not so and it was true or true was given; else undecided.  So the order does not matter. *)
Theorem C76_history s0 h : let t := fold_left tr_and h (tr_code s0) in
  (tr_not t = true <-> In SFalse (s0 :: h)) /\ (tr_bool t = true <-> ~ In SFalse (s0 :: h) /\ In STrue (s0 :: h)) /\
  (tr_maybe t = true <-> ~ In SFalse (s0 :: h) /\ ~ In STrue (s0 :: h)).
Proof.
  cbv zeta. revert s0. induction h as [|s h IH]; intros s0.
  - destruct s0; cbn; repeat split; intros; try discriminate; try tauto; intuition discriminate.
  - cbn [fold_left].
    assert (X : exists s1, tr_and (tr_code s0) s = tr_code s1 /\ (s1 = SFalse <-> s0 = SFalse \/ s = SFalse) /\ (s1 = STrue <-> s0 <> SFalse /\ s <> SFalse /\ (s0 = STrue \/ s = STrue))).
    { destruct s0, s; [exists STrue|exists SFalse|exists STrue|exists SFalse|exists SFalse|exists SFalse|exists STrue|exists SFalse|exists SMaybe]; (split; [reflexivity|]); intuition discriminate. }
    destruct X as (s1 & -> & X1 & X2). destruct (IH s1) as (A & B & C). rewrite A, B, C. cbn [In].
    assert (Y : s1 = STrue \/ s1 <> STrue) by (destruct s1; [left|right|right]; congruence). assert (Y0 : s0 = STrue \/ s0 = SFalse \/ s0 = SMaybe) by (destruct s0; auto).
    assert (Y1 : s = STrue \/ s = SFalse \/ s = SMaybe) by (destruct s; auto). clear IH A B C.
    destruct Y0 as [->|[->| ->]], Y1 as [->|[->| ->]]; intuition (try discriminate; auto); intuition congruence.
Qed.
Print Assumptions C76_history.
Example C76_history_example : fold_left tr_and [STrue; SMaybe; SFalse; STrue] tr_default = tr_code SFalse /\ fold_left tr_and [SMaybe; STrue] tr_default = tr_code STrue.
Proof. split; reflexivity. Qed.

(** Refuted: that != is the negation of ==; that &= is the conjunction of three values, in which undecided and true are undecided; that a value is equal to what it was made of. *)
Theorem C76_three_refuted : (tr_eq_bool (tr_code SFalse) false = true /\ tr_ne_bool (tr_code SFalse) false = true) /\
  tr_and (tr_code SMaybe) STrue = tr_code STrue /\ tr_eq (tr_of 2) 2 = false.
Proof. repeat split. Qed.
Print Assumptions C76_three_refuted.
(** != with true is right for all three. *)
Theorem C76_not_true s : tr_ne_bool (tr_code s) true = negb (tr_eq_bool (tr_code s) true).
Proof. destruct s; reflexivity. Qed.
Print Assumptions C76_not_true.
