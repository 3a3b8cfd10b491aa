(** Proofs about the RandomAccessSet model. *)
From Coq Require Import Sorted.
From Verif Require Import Base RandomAccessSetModel RandomAccessSetSpec.

Section Proofs.
Variable K : Type.
Variable lt : K -> K -> bool.
Hypothesis swo : strict_weak_order K lt.

Notation asc := (ascending K lt).
Notation eqv := (eqv K lt).
Notation contains := (contains K lt).

Lemma eqv_refl : forall a, eqv a a.
Proof. intro a. split; apply swo. Qed.
Lemma eqv_sym : forall a b, eqv a b -> eqv b a.
Proof. intros a b [H1 H2]. split; auto. Qed.
Lemma eqv_trans : forall a b c, eqv a b -> eqv b c -> eqv a c.
Proof. intros a b c [H1 H2] [H3 H4]. apply (swo_incomp _ _ swo a b c); auto. Qed.

Lemma lt_asym : forall a b, lt a b = true -> lt b a = false.
Proof.
  intros a b H. destruct (lt b a) eqn:E; auto.
  pose proof (swo_trans _ _ swo _ _ _ H E) as G. rewrite (swo_irrefl _ _ swo) in G. discriminate.
Qed.

Lemma eqv_lt_l : forall a b c, eqv a b -> lt a c = true -> lt b c = true.
Proof.
  intros a b c E H. destruct (lt b c) eqn:F; auto.
  destruct (lt c b) eqn:G.
  - pose proof (swo_trans _ _ swo _ _ _ H G) as T. destruct E. congruence.
  - assert (eqv a c) as [X _] by (eapply eqv_trans; [apply E|split; auto]). congruence.
Qed.

Lemma eqv_lt_r : forall a b c, eqv a b -> lt c a = true -> lt c b = true.
Proof.
  intros a b c E H. destruct (lt c b) eqn:F; auto.
  destruct (lt b c) eqn:G.
  - pose proof (swo_trans _ _ swo _ _ _ G H) as T. destruct E. congruence.
  - assert (eqv a c) as [_ X] by (eapply eqv_trans; [apply E|split; auto]). congruence.
Qed.

(** negative transitivity *)
Lemma lt_negtrans : forall a b c, lt a b = true -> lt a c = true \/ lt c b = true.
Proof.
  intros a b c H. destruct (lt a c) eqn:E; auto. right.
  destruct (lt c a) eqn:F.
  - eapply (swo_trans _ _ swo); eauto.
  - eapply eqv_lt_l; [|apply H]. split; auto.
Qed.

Lemma asc_nth : forall l, asc l -> forall i j x y, nth_error l i = Some x -> nth_error l j = Some y ->
  i < j -> lt x y = true.
Proof.
  intros l H. induction H as [|a l H IH HF]; intros i j x y Hi Hj Hij.
  - destruct i; discriminate.
  - destruct j as [|j]; [lia|]. simpl in Hj. destruct i as [|i].
    + simpl in Hi. injection Hi as <-. rewrite Forall_forall in HF. apply HF. eapply nth_error_In; eauto.
    + simpl in Hi. eapply IH; eauto. lia.
Qed.

Lemma asc_of_nth : forall l, (forall i j x y, nth_error l i = Some x -> nth_error l j = Some y ->
  i < j -> lt x y = true) -> asc l.
Proof.
  induction l as [|a l IH]; intro H; constructor.
  - apply IH. intros i j x y Hi Hj Hij. apply (H (S i) (S j)); auto. lia.
  - apply Forall_forall. intros x Hx. apply In_nth_error in Hx. destruct Hx as [j Hj].
    apply (H 0 (S j)); auto. lia.
Qed.

(** Result of the binary search on a list partitioned by [g]. *)
Definition Partitioned (g : K -> bool) (v : list K) (i : nat) : Prop :=
  i <= length v /\
  (forall j x, nth_error v j = Some x -> j < i -> g x = true) /\
  (forall j x, nth_error v j = Some x -> i <= j -> g x = false).

Lemma bsearch_spec : forall g v,
  (forall i j x y, nth_error v i = Some x -> nth_error v j = Some y -> i <= j -> g y = true -> g x = true) ->
  forall fuel first len, len <= fuel -> first + len <= length v ->
  (forall j x, nth_error v j = Some x -> j < first -> g x = true) ->
  (forall j x, nth_error v j = Some x -> first + len <= j -> g x = false) ->
  exists i, bsearch K fuel g v first len = Ret i /\ Partitioned g v i.
Proof.
  intros g v Hmono. induction fuel as [|fuel IH]; intros first len Hf Hlen HL HR.
  - assert (len = 0) by lia. subst. simpl. exists first. split; auto. split; [lia|]. split; auto.
    intros j x Hx Hj. eapply HR; eauto. lia.
  - destruct len as [|len].
    + simpl. exists first. split; auto. split; [lia|]. split; auto.
      intros j x Hx Hj. eapply HR; eauto. lia.
    + pose proof (Nat.div2_decr (S len) len) as Hd.
      assert (Hh : Nat.div2 (S len) <= len) by (apply Hd; lia). clear Hd.
      cbn [bsearch]. set (h := Nat.div2 (S len)) in *. clearbody h.
      destruct (nth_error_lt _ v (first + h)) as [x Hx]; [lia|].
      rewrite (rd_Ret _ _ _ _ Hx). cbn [bind].
      destruct (g x) eqn:Eg.
      * apply IH; try lia.
        -- intros j y Hy Hj. apply (Hmono j (first + h) y x); auto. lia.
        -- intros j y Hy Hj. eapply HR; eauto. lia.
      * apply IH; try lia; auto.
        intros j y Hy Hj. destruct (g y) eqn:Ey; auto.
        rewrite (Hmono (first + h) j x y) in Eg; auto.
Qed.

Lemma lower_spec : forall v k, asc v -> exists i, ras_lower_bound K lt v k = Ret i /\
  Partitioned (fun x => lt x k) v i.
Proof.
  intros v k H. apply bsearch_spec; auto; try (intros; lia).
  - intros i j x y Hi Hj Hij Hg. destruct (Nat.eq_dec i j) as [->|N]; [congruence|].
    eapply (swo_trans _ _ swo); [|apply Hg]. eapply asc_nth; eauto. lia.
  - intros j x Hx Hj. assert (j < length v) by (apply nth_error_Some; congruence). lia.
Qed.

Lemma upper_spec : forall v k, asc v -> exists i, ras_upper_bound K lt v k = Ret i /\
  Partitioned (fun x => negb (lt k x)) v i.
Proof.
  intros v k H. apply bsearch_spec; auto; try (intros; lia).
  - intros i j x y Hi Hj Hij Hg. destruct (Nat.eq_dec i j) as [->|N]; [congruence|].
    apply negb_true_iff. apply negb_true_iff in Hg. destruct (lt k x) eqn:E; auto.
    rewrite (swo_trans _ _ swo k x y) in Hg; auto. eapply asc_nth; eauto. lia.
  - intros j x Hx Hj. assert (j < length v) by (apply nth_error_Some; congruence). lia.
Qed.

(** Position of a key relative to the lower bound. *)
Lemma lower_contains : forall v k i, asc v -> Partitioned (fun x => lt x k) v i ->
  (contains v k <-> exists x, nth_error v i = Some x /\ lt k x = false).
Proof.
  intros v k i H [P1 [P2 P3]]. split.
  - intros [x [Hin [E1 E2]]]. apply In_nth_error in Hin. destruct Hin as [j Hj].
    destruct (Nat.lt_trichotomy j i) as [L|[->|L]].
    + rewrite (P2 j x Hj L) in E2. discriminate.
    + exists x. auto.
    + destruct (nth_error_lt _ v i) as [y Hy].
      { assert (j < length v) by (apply nth_error_Some; congruence). lia. }
      pose proof (asc_nth _ H _ _ _ _ Hy Hj L) as Lyx. cbv beta in *.
      destruct (lt_negtrans _ _ k Lyx) as [G|G]; [|congruence].
      rewrite (P3 i y Hy) in G by lia. discriminate.
  - intros [x [Hx E]]. exists x. split; [eapply nth_error_In; eauto|]. split; auto.
    apply (P3 i x); auto.
Qed.

Lemma vec_insert_nth : forall v i (x : K), i <= length v -> nth_error (vec_insert K v i x) i = Some x.
Proof.
  intros v i x H. unfold vec_insert. rewrite nth_error_app2 by (rewrite firstn_length; lia).
  rewrite firstn_length, Nat.min_l by auto. rewrite Nat.sub_diag. reflexivity.
Qed.

Lemma vec_insert_In : forall v i (x y : K), In y (vec_insert K v i x) <-> y = x \/ In y v.
Proof.
  intros v i x y. unfold vec_insert. rewrite <- (firstn_skipn i v) at 3.
  rewrite !in_app_iff. simpl. intuition.
Qed.

Lemma vec_insert_length : forall v i (x : K), length (vec_insert K v i x) = S (length v).
Proof.
  intros v i x. unfold vec_insert. rewrite <- (firstn_skipn i v) at 3.
  rewrite !app_length. simpl. lia.
Qed.

Lemma SS_app : forall (l1 l2 : list K), asc l1 -> asc l2 ->
  (forall x y, In x l1 -> In y l2 -> lt x y = true) -> asc (l1 ++ l2).
Proof.
  intros l1 l2 H1 H2 H. induction H1 as [|a l1 H1 IH HF]; simpl; auto.
  constructor.
  - apply IH. intros x y Hx. apply H. simpl; auto.
  - apply Forall_forall. intros x Hx. apply in_app_iff in Hx. destruct Hx as [Hx|Hx].
    + rewrite Forall_forall in HF. auto.
    + apply H; simpl; auto.
Qed.

Lemma SS_app_inv : forall (l1 l2 : list K), asc (l1 ++ l2) ->
  asc l1 /\ asc l2 /\ (forall x y, In x l1 -> In y l2 -> lt x y = true).
Proof.
  induction l1 as [|a l1 IH]; simpl; intros l2 H.
  - split; [constructor|]. split; [exact H|]. intros x y Hx. destruct Hx.
  - inversion H as [|? ? H1 H2]; subst. destruct (IH _ H1) as [G1 [G2 G3]].
    rewrite Forall_forall in H2. split.
    + constructor; auto. apply Forall_forall. intros x Hx. apply H2. apply in_app_iff; auto.
    + split; auto. intros x y [<-|Hx] Hy; auto. apply H2. apply in_app_iff; auto.
Qed.

Lemma In_firstn_nth : forall (v : list K) i x, In x (firstn i v) -> exists j, j < i /\ nth_error v j = Some x.
Proof.
  induction v as [|a v IH]; intros [|i] x H; simpl in H; try tauto.
  destruct H as [<-|H].
  - exists 0. split; [lia|auto].
  - destruct (IH _ _ H) as [j [Hj E]]. exists (S j). split; [lia|auto].
Qed.

Lemma In_skipn_nth : forall (v : list K) i x, In x (skipn i v) -> exists j, i <= j /\ nth_error v j = Some x.
Proof.
  induction v as [|a v IH]; intros [|i] x H; simpl in H; try tauto.
  - change (In x (a :: v)) in H. apply In_nth_error in H. destruct H as [j Hj]. exists j. split; [lia|auto].
  - destruct (IH _ _ H) as [j [Hj E]]. exists (S j). split; [lia|auto].
Qed.

Lemma nth_In_firstn : forall (v : list K) i j x, j < i -> nth_error v j = Some x -> In x (firstn i v).
Proof.
  induction v as [|a v IH]; intros [|i] [|j] x Hj H; simpl in *; try discriminate; try lia.
  - injection H as <-. auto.
  - right. eapply IH; eauto. lia.
Qed.

Lemma nth_In_skipn : forall (v : list K) i j x, i <= j -> nth_error v j = Some x -> In x (skipn i v).
Proof.
  induction v as [|a v IH]; intros [|i] [|j] x Hj H; simpl in *; try discriminate; try lia.
  - injection H as <-. auto.
  - right. eapply nth_error_In; eauto.
  - apply (IH i j); auto. lia.
Qed.

Lemma asc_insert : forall v k i, asc v -> Partitioned (fun x => lt x k) v i ->
  ~ contains v k -> asc (vec_insert K v i k).
Proof.
  intros v k i H P Hn. pose proof P as [P1 [P2 P3]]. unfold vec_insert.
  rewrite <- (firstn_skipn i v) in H. apply SS_app_inv in H. destruct H as [H1 [H2 H3]].
  assert (HR : forall y, In y (skipn i v) -> lt k y = true).
  { intros y Hy. destruct (lt k y) eqn:E; auto. exfalso. apply Hn.
    pose proof (In_skipn_nth _ _ _ Hy) as [j [Hj Ej]].
    exists y. split; [eapply nth_error_In; eauto|]. split; auto. apply (P3 j y); auto. }
  apply SS_app; auto.
  - constructor; auto. apply Forall_forall. auto.
  - intros x y Hx [<-|Hy]; auto.
    pose proof (In_firstn_nth _ _ _ Hx) as [j [Hj Ej]]. apply (P2 j x); auto.
Qed.

Lemma contains_insert : forall v i x k, contains (vec_insert K v i x) k <-> contains v k \/ eqv k x.
Proof.
  intros v i x k. unfold RandomAccessSetSpec.contains. split.
  - intros [y [Hy E]]. apply vec_insert_In in Hy. destruct Hy as [->|Hy]; auto. left. eauto.
  - intros [[y [Hy E]]|E].
    + exists y. split; auto. apply vec_insert_In. auto.
    + exists x. split; auto. apply vec_insert_In. auto.
Qed.

Lemma contains_eqv : forall v a b, eqv a b -> contains v a -> contains v b.
Proof.
  intros v a b E [x [Hx Ex]]. exists x. split; auto. eapply eqv_trans; [apply eqv_sym; eauto|auto].
Qed.

Lemma insert_spec : forall v k, asc v ->
  exists v' i ins, ras_insert K lt v k = Ret (v', i, ins) /\ asc v' /\
    (ins = true <-> ~ contains v k) /\
    (exists x, nth_error v' i = Some x /\ eqv k x /\ (ins = true -> x = k)) /\
    (ins = false -> v' = v) /\
    (ins = true -> length v' = S (length v) /\ forall x, In x v' <-> x = k \/ In x v) /\
    (forall q, contains v' q <-> contains v q \/ eqv q k).
Proof.
  intros v k H. destruct (lower_spec v k H) as [i [E P]].
  pose proof (lower_contains v k i H P) as HC.
  unfold ras_insert. rewrite E. cbn [bind].
  assert (Yes : ~ contains v k -> 
     exists v' i0 ins, Ret (vec_insert K v i k, i, true) = Ret (v', i0, ins) /\ asc v' /\
    (ins = true <-> ~ contains v k) /\
    (exists x, nth_error v' i0 = Some x /\ eqv k x /\ (ins = true -> x = k)) /\
    (ins = false -> v' = v) /\
    (ins = true -> length v' = S (length v) /\ forall x, In x v' <-> x = k \/ In x v) /\
    (forall q, contains v' q <-> contains v q \/ eqv q k)).
  { intro Hn. exists (vec_insert K v i k), i, true. split; auto. split; [apply asc_insert; auto|].
    split; [tauto|]. split.
    - exists k. split; [apply vec_insert_nth; apply P|]. split; [apply eqv_refl|auto].
    - split; [discriminate|]. split.
      + intros _. split; [apply vec_insert_length|]. intro x. apply vec_insert_In.
      + intro q. apply contains_insert. }
  destruct (Nat.eqb_spec i (length v)) as [Hi|Hi].
  - apply Yes. rewrite HC. intros [x [Hx _]].
    assert (i < length v) by (apply nth_error_Some; congruence). lia.
  - destruct (nth_error_lt _ v i) as [x Hx]; [destruct P; lia|].
    rewrite (rd_Ret _ _ _ _ Hx). cbn [bind]. destruct (lt k x) eqn:Ex.
    + apply Yes. rewrite HC. intros [y [Hy Ey]]. congruence.
    + assert (Hc : contains v k) by (apply HC; eauto).
      exists v, i, false. split; auto. split; auto. split; [split; [discriminate|tauto]|].
      split.
      * exists x. split; auto. split; [|discriminate]. split; auto.
        destruct P as [_ [_ P3]]. apply (P3 i x); auto.
      * split; auto. split; [discriminate|]. intro q. split; auto. intros [G|G]; auto.
        eapply contains_eqv; [|apply Hc]. apply eqv_sym. auto.
Qed.

Lemma insert_range_spec : forall l v, asc v ->
  exists v', ras_insert_range K lt v l = Ret v' /\ asc v' /\
    (forall q, contains v' q <-> contains v q \/ contains l q).
Proof.
  induction l as [|a l IH]; intros v H.
  - exists v. split; [reflexivity|]. split; auto. intro q. split; auto. intros [G|[x [[] _]]]; auto.
  - destruct (insert_spec v a H) as [v1 [i [ins [E [H1 [_ [_ [_ [_ G1]]]]]]]]].
    destruct (IH v1 H1) as [v2 [E2 [H2 G2]]].
    exists v2. unfold ras_insert_range in *. cbn [foldM]. rewrite E. cbn [bind].
    split; auto. split; auto. intro q. rewrite G2, G1.
    unfold RandomAccessSetSpec.contains. simpl. split.
    + intros [[A|A]|[x [B C]]]; [auto| |].
      * right. exists a. auto.
      * right. exists x. auto.
    + intros [A|[x [[<-|B] C]]]; auto. right. exists x. auto.
Qed.

Lemma find_spec : forall v k, asc v ->
  exists i, ras_find K lt v k = Ret i /\
    (contains v k -> exists x, nth_error v i = Some x /\ eqv k x) /\
    (~ contains v k -> i = length v) /\
    (contains v k \/ ~ contains v k).
Proof.
  intros v k H. destruct (lower_spec v k H) as [i [E P]].
  pose proof (lower_contains v k i H P) as HC. pose proof P as [P1 [_ P3]].
  unfold ras_find. rewrite E. cbn [bind].
  destruct (Nat.eqb_spec i (length v)) as [Hi|Hi].
  - exists i. split; auto.
    assert (~ contains v k).
    { rewrite HC. intros [x [Hx _]].
      assert (i < length v) by (apply nth_error_Some; congruence). lia. }
    split; tauto.
  - destruct (nth_error_lt _ v i) as [x Hx]; [lia|].
    rewrite (rd_Ret _ _ _ _ Hx). cbn [bind]. destruct (lt k x) eqn:Ex.
    + exists (length v). split; auto.
      assert (~ contains v k) by (rewrite HC; intros [y [Hy Ey]]; congruence). split; tauto.
    + exists i. split; auto. assert (contains v k) by (apply HC; eauto).
      split; [|tauto]. intros _. exists x. split; auto. split; auto. apply (P3 i x); auto.
Qed.

Lemma erase_range_facts : forall v i j, asc v -> i <= j -> j <= length v ->
  asc (vec_erase K v i j) /\
  (forall x, In x (vec_erase K v i j) <-> exists p, nth_error v p = Some x /\ ~ (i <= p < j)).
Proof.
  intros v i j H Hij Hj. unfold vec_erase. split.
  - apply SS_app.
    + rewrite <- (firstn_skipn i v) in H. apply SS_app_inv in H. tauto.
    + rewrite <- (firstn_skipn j v) in H. apply SS_app_inv in H. tauto.
    + intros x y Hx Hy. apply In_firstn_nth in Hx. apply In_skipn_nth in Hy.
      destruct Hx as [p [Hp Ep]], Hy as [q [Hq Eq]].
      apply (asc_nth v H p q); auto. lia.
  - intro x. rewrite in_app_iff. split.
    + intros [Hx|Hx].
      * apply In_firstn_nth in Hx. destruct Hx as [p [Hp Ep]]. exists p. split; auto. lia.
      * apply In_skipn_nth in Hx. destruct Hx as [p [Hp Ep]]. exists p. split; auto. lia.
    + intros [p [Ep Np]]. destruct (Nat.lt_ge_cases p i).
      * left. eapply nth_In_firstn; eauto.
      * right. apply (nth_In_skipn v j p); auto. lia.
Qed.

(** Distinct positions hold inequivalent keys. *)
Lemma asc_eqv_pos : forall v i j x y, asc v -> nth_error v i = Some x -> nth_error v j = Some y ->
  eqv x y -> i = j.
Proof.
  intros v i j x y H Hi Hj [E1 E2]. destruct (Nat.lt_trichotomy i j) as [L|[L|L]]; auto.
  - rewrite (asc_nth v H i j x y) in E1; auto. discriminate.
  - rewrite (asc_nth v H j i y x) in E2; auto. discriminate.
Qed.

Lemma contains_erase : forall v i j k, asc v -> i <= j -> j <= length v ->
  (contains (vec_erase K v i j) k <->
   contains v k /\ ~ exists p x, i <= p < j /\ nth_error v p = Some x /\ eqv k x).
Proof.
  intros v i j k H Hij Hj. destruct (erase_range_facts v i j H Hij Hj) as [_ HIn].
  unfold RandomAccessSetSpec.contains. split.
  - intros [x [Hx E]]. apply HIn in Hx. destruct Hx as [p [Ep Np]]. split.
    + exists x. split; auto. eapply nth_error_In; eauto.
    + intros [q [y [Hq [Eq Ey]]]]. apply Np.
      assert (p = q); [|subst; auto]. eapply asc_eqv_pos; eauto.
      eapply eqv_trans; [apply eqv_sym|]; eauto.
  - intros [[x [Hx E]] Hn]. exists x. split; auto. apply HIn.
    apply In_nth_error in Hx. destruct Hx as [p Ep]. exists p. split; auto.
    intro Hp. apply Hn. exists p, x. auto.
Qed.

(** Two ascending lists with the same content have equivalent entries everywhere. *)
Lemma asc_unique : forall l1 l2, asc l1 -> asc l2 -> (forall k, contains l1 k <-> contains l2 k) ->
  Forall2 eqv l1 l2.
Proof.
  intros l1 l2 H1. revert l2. induction H1 as [|a l1 H1 IH HF]; intros l2 H2 HC.
  - destruct l2 as [|b l2]; [constructor|].
    exfalso. destruct (proj2 (HC b)) as [x [[] _]]. exists b. split; [simpl; auto|apply eqv_refl].
  - destruct l2 as [|b l2].
    { exfalso. destruct (proj1 (HC a)) as [x [[] _]]. exists a. split; [simpl; auto|apply eqv_refl]. }
    inversion H2 as [|? ? H2' HF2]; subst. rewrite Forall_forall in HF, HF2.
    assert (Eab : eqv a b).
    { destruct (proj1 (HC a)) as [x [Hx Ex]]; [exists a; split; [simpl; auto|apply eqv_refl]|].
      destruct (proj2 (HC b)) as [y [Hy Ey]]; [exists b; split; [simpl; auto|apply eqv_refl]|].
      destruct Hx as [<-|Hx]; auto. destruct Hy as [<-|Hy]; [apply eqv_sym; auto|].
      pose proof (HF2 x Hx) as B1. pose proof (HF y Hy) as B2.
      assert (B3 : lt b a = true) by (eapply eqv_lt_r; [apply eqv_sym; apply Ex|auto]).
      assert (B4 : lt a b = true) by (eapply eqv_lt_r; [apply eqv_sym; apply Ey|auto]).
      pose proof (lt_asym _ _ B3). congruence. }
    constructor; auto. apply IH; auto. intro k.
    assert (Hl : forall (c : K) l, (forall z, In z l -> lt c z = true) ->
       (contains l k <-> contains (c :: l) k /\ ~ eqv k c)).
    { intros c l Hc. split.
      - intros [x [Hx Ex]]. split; [exists x; simpl; auto|]. intro Ek.
        assert (eqv c x) as [G _] by (eapply eqv_trans; [apply eqv_sym; apply Ek|auto]).
        rewrite Hc in G; auto. discriminate.
      - intros [[x [[<-|Hx] Ex]] N]; [tauto|]. exists x. auto. }
    rewrite (Hl a l1 HF), (Hl b l2 HF2), HC.
    split; intros [G N]; split; auto; intro X; apply N.
    + eapply eqv_trans; [apply X|apply eqv_sym; auto].
    + eapply eqv_trans; [apply X|auto].
Qed.

Definition Repr (v : list K) (S : kset K) : Prop := asc v /\ forall k, S k <-> contains v k.

Lemma nth_smallest_repr : forall v S p, Repr v S ->
  (forall x, nth_error v p = Some x -> nth_smallest K lt S p x) /\
  (forall x, nth_smallest K lt S p x -> exists y, nth_error v p = Some y /\ eqv x y).
Proof.
  intros v S p [H HC]. split.
  - intros x Hx. exists v. auto.
  - intros x [l [Hl [HCl Hx]]].
    assert (F : Forall2 eqv l v).
    { apply asc_unique; auto. intro k. rewrite <- HC, <- HCl. tauto. }
    clear -F Hx. revert p Hx. induction F as [|a b l v E F IH]; intros [|p] Hx; simpl in *; try discriminate.
    + injection Hx as <-. exists b. auto.
    + auto.
Qed.

Lemma step_spec : forall v S o S', Repr v S -> set_step K lt S o S' ->
  exists v', ras_step K lt v o = Ret v' /\ Repr v' S'.
Proof.
  intros v S o S' HR HS. pose proof HR as [H HC]. destruct HS as [k|l|k|i x Hx|i j n Hn Hij| |l Hl]; cbn [ras_step].
  - destruct (insert_spec v k H) as [v' [i [ins [E [H' [_ [_ [_ [_ G]]]]]]]]].
    rewrite E. cbn [bind]. exists v'. split; auto. split; auto. intro q. rewrite HC, G. tauto.
  - destruct (insert_range_spec l v H) as [v' [E [H' G]]].
    exists v'. split; auto. split; auto. intro q. rewrite HC, G. tauto.
  - destruct (find_spec v k H) as [i [E [F1 [F2 F3]]]].
    unfold ras_erase_key. rewrite E. cbn [bind].
    destruct F3 as [Hc|Hc].
    + destruct (F1 Hc) as [x [Hx Ex]].
      assert (Hlt : i < length v) by (apply nth_error_Some; congruence).
      destruct (Nat.eqb_spec i (length v)); [lia|]. cbn [negb].
      unfold ras_erase_pos. destruct (Nat.ltb_spec i (length v)); [|lia]. cbn [bind].
      eexists. split; [reflexivity|]. split; [apply erase_range_facts; auto|].
      intro q. rewrite contains_erase by (auto; lia). rewrite HC. split; intros [A B]; split; auto.
      * intros [p [y [Hp [Ey Eq]]]]. assert (p = i) by lia. subst. apply B.
        assert (y = x) by congruence. subst. eapply eqv_trans; [apply Eq|apply eqv_sym; auto].
      * intro G. apply B. exists i, x. split; [lia|]. split; auto. eapply eqv_trans; eauto.
    + rewrite (F2 Hc), Nat.eqb_refl. cbn [negb bind]. eexists. split; [reflexivity|].
      split; auto. intro q. rewrite HC. split; [tauto|]. intro G. split; auto.
      intro Eq. apply Hc. eapply contains_eqv; eauto.
  - destruct (nth_smallest_repr v S i HR) as [_ G]. destruct (G x Hx) as [y [Hy Ey]].
    assert (Hlt : i < length v) by (apply nth_error_Some; congruence).
    unfold ras_erase_pos. destruct (Nat.ltb_spec i (length v)); [|lia].
    eexists. split; [reflexivity|]. split; [apply erase_range_facts; auto|].
    intro q. rewrite contains_erase by (auto; lia). rewrite HC. split; intros [A B]; split; auto.
    * intros [p [z [Hp [Ez Eq]]]]. assert (p = i) by lia. subst. apply B.
      assert (z = y) by congruence. subst. eapply eqv_trans; [apply Eq|apply eqv_sym; auto].
    * intro G'. apply B. exists i, y. split; [lia|]. split; auto. eapply eqv_trans; eauto.
  - assert (Hlen : length v = n).
    { destruct Hn as [l [Hl [HCl En]]]. rewrite <- En. symmetry.
      assert (F : Forall2 eqv l v).
      { apply asc_unique; auto. intro k. rewrite <- HC, <- HCl. tauto. }
      clear -F. induction F; simpl; auto. }
    subst n. unfold ras_erase_range.
    destruct (Nat.leb_spec i j); [|lia]. destruct (Nat.leb_spec j (length v)); [|lia]. cbn [andb].
    eexists. split; [reflexivity|]. split; [apply erase_range_facts; auto|].
    intro q. rewrite contains_erase by (auto; lia). rewrite HC. split; intros [A B]; split; auto.
    * intros [p [x [Hp [Ex Eq]]]]. apply B. exists p, x. split; auto. split; auto.
      apply (nth_smallest_repr v S p HR). auto.
    * intros [p [x [Hp [Hx Eq]]]]. apply B.
      destruct (proj2 (nth_smallest_repr v S p HR) x Hx) as [y [Hy Ey]].
      exists p, y. split; auto. split; auto. eapply eqv_trans; eauto.
  - exists []. split; [reflexivity|]. split; [constructor|]. intro k. split; [tauto|]. intros [x [[] _]].
  - exists l. split; [reflexivity|]. split; auto. tauto.
Qed.

Lemma run_spec : forall ops v S S', Repr v S -> set_run K lt S ops S' ->
  exists v', foldM (ras_step K lt) ops v = Ret v' /\ Repr v' S'.
Proof.
  induction ops as [|o ops IH]; intros v S S' HR HS; inversion HS; subst.
  - exists v. auto.
  - match goal with A : set_step _ _ _ _ _, B : set_run _ _ _ _ _ |- _ =>
      destruct (step_spec _ _ _ _ HR A) as [v1 [E R1]]; destruct (IH _ _ _ R1 B) as [v2 [E2 R2]] end.
    exists v2. split; auto. cbn [foldM]. rewrite E. auto.
Qed.

Lemma C04_main : forall ops S, set_run K lt (fun _ => False) ops S ->
  exists v, ras_run K lt ops = Ret v /\ asc v /\ (forall k, S k <-> contains v k) /\
  forall k, (S k \/ ~ S k) /\
   (exists i, ras_find K lt v k = Ret i /\
      (S k -> exists x, nth_error v i = Some x /\ eqv k x) /\ (~ S k -> i = length v)) /\
   (exists c, ras_count K lt v k = Ret c /\ (S k -> c = 1) /\ (~ S k -> c = 0)) /\
   (exists l u, ras_lower_bound K lt v k = Ret l /\ ras_upper_bound K lt v k = Ret u /\
      ras_equal_range K lt v k = Ret (l, u) /\ l <= u <= length v /\
      (forall j x, nth_error v j = Some x -> (j < l <-> lt x k = true) /\ (u <= j <-> lt k x = true))) /\
   (exists v' i ins, ras_insert K lt v k = Ret (v', i, ins) /\
      (ins = true <-> ~ S k) /\
      (exists x, nth_error v' i = Some x /\ eqv k x /\ (ins = true -> x = k)) /\
      (ins = false -> v' = v) /\
      (ins = true -> length v' = Datatypes.S (length v) /\ forall x, In x v' <-> x = k \/ In x v)) /\
   (exists v' c, ras_erase_key K lt v k = Ret (v', c) /\ (S k -> c = 1) /\ (~ S k -> c = 0 /\ v' = v)).
Proof.
  intros ops S HS.
  destruct (run_spec ops [] (fun _ => False) S) as [v [E [H HC]]]; auto.
  { split; [constructor|]. intro k. split; [tauto|]. intros [x [[] _]]. }
  exists v. split; auto. split; auto. split; auto. intro k.
  destruct (find_spec v k H) as [i [Ei [F1 [F2 F3]]]].
  rewrite <- HC in F1, F2, F3. split; [tauto|]. split; [exists i; auto|].
  split.
  { unfold ras_count. rewrite Ei. cbn [bind]. eexists. split; [reflexivity|]. split.
    - intro Hs. destruct (F1 Hs) as [x [Hx _]].
      assert (i < length v) by (apply nth_error_Some; congruence).
      destruct (Nat.eqb_spec i (length v)); [lia|auto].
    - intro Hs. rewrite (F2 Hs), Nat.eqb_refl. auto. }
  split.
  { destruct (lower_spec v k H) as [l [El [L1 [L2 L3]]]].
    destruct (upper_spec v k H) as [u [Eu [U1 [U2 U3]]]].
    exists l, u. split; auto. split; auto. split; [unfold ras_equal_range; rewrite El, Eu; auto|].
    assert (l <= u).
    { destruct (Nat.lt_ge_cases u l) as [C|C]; auto. exfalso.
      destruct (nth_error_lt _ v u) as [x Hx]; [lia|].
      pose proof (L2 u x Hx C) as A. pose proof (U3 u x Hx (le_n _)) as B. cbv beta in *.
      apply negb_false_iff in B. pose proof (lt_asym _ _ A). congruence. }
    split; [lia|].
    intros j x Hx. split; split.
    - intro Hj. apply (L2 j x); auto.
    - intro Hl. destruct (Nat.lt_ge_cases j l) as [C|C]; auto.
      rewrite (L3 j x Hx C) in Hl. discriminate.
    - intro Hj. apply negb_false_iff. apply (U3 j x); auto.
    - intro Hl. destruct (Nat.lt_ge_cases j u) as [C|C]; auto.
      pose proof (U2 j x Hx C) as A. cbv beta in A. rewrite Hl in A. discriminate. }
  split.
  { destruct (insert_spec v k H) as [v' [p [ins [Ev [_ [G1 [G2 [G3 [G4 _]]]]]]]]].
    rewrite <- HC in G1. exists v', p, ins. auto. }
  unfold ras_erase_key. rewrite Ei. cbn [bind].
  destruct F3 as [Hs|Hs].
  - destruct (F1 Hs) as [x [Hx _]].
    assert (i < length v) by (apply nth_error_Some; congruence).
    destruct (Nat.eqb_spec i (length v)); [lia|]. cbn [negb].
    unfold ras_erase_pos. destruct (Nat.ltb_spec i (length v)); [|lia]. cbn [bind].
    eexists. eexists. split; [reflexivity|]. tauto.
  - rewrite (F2 Hs), Nat.eqb_refl. cbn [negb]. eexists. eexists. split; [reflexivity|]. tauto.
Qed.

End Proofs.
