(** Proofs about the queue models. *)
From Verif Require Import Base RandomAccessSetSpec RandomAccessSetProofs QueuesModel QueuesSpec.

#[local] Arguments nth_error : simpl never.
#[local] Arguments nth : simpl never.
#[local] Arguments repeat : simpl never.

Section PQProofs.
Variable T : Type.
Variable d : T.
Variable lt : T -> T -> bool.
Hypothesis swo : strict_weak_order T lt.

Notation pq := (pq T).
Notation eqv := (eqv T lt).

Lemma gt_lt : forall a b, pq_gt T lt a b = lt b a.
Proof.
  intros a b. unfold pq_gt, pq_eq. destruct (lt a b) eqn:E1, (lt b a) eqn:E2; auto.
  rewrite (lt_asym T lt swo _ _ E1) in E2. discriminate.
Qed.

Lemma leqt_lt : forall a b, pq_leqt T lt a b = negb (lt b a).
Proof. reflexivity. Qed.

Lemma le_trans : forall a b c, lt b a = false -> lt c b = false -> lt c a = false.
Proof.
  intros a b c H1 H2. destruct (lt c a) eqn:E; auto.
  destruct (lt_negtrans T lt swo _ _ b E); congruence.
Qed.

Record Bij (q : pq) (n : nat) : Prop := {
  bj_h : length (q_heap T q) = S (q_max T q);
  bj_i : length (q_ind T q) = S (q_max T q);
  bj_p : length (q_prio T q) = S (q_max T q);
  bj_n : n <= q_max T q;
  bj_pos : forall p, 1 <= p <= n -> exists i, nth_error (q_heap T q) p = Some (Some i) /\
             nth_error (q_ind T q) i = Some (Some p);
  bj_ind : forall i p, nth_error (q_ind T q) i = Some (Some p) ->
             1 <= p <= n /\ nth_error (q_heap T q) p = Some (Some i);
  bj_0 : nth_error (q_heap T q) 0 = Some (Some 0) }.

Definition key (q : pq) (p : nat) : T :=
  match nth_error (q_heap T q) p with
  | Some (Some i) => nth i (q_prio T q) d
  | _ => d
  end.

Definition in_q (q : pq) (x : nat) : Prop := exists p, nth_error (q_ind T q) x = Some (Some p).

Lemma key_spec : forall q n p, Bij q n -> 1 <= p <= n -> pq_key T q p = Ret (key q p).
Proof.
  intros q n p HB Hp. destruct (bj_pos _ _ HB p Hp) as [i [H1 H2]].
  unfold pq_key, key. rewrite (rd_Ret _ _ _ _ H1). cbn [bind rdi]. rewrite H1.
  apply rd_nth. rewrite (bj_p _ _ HB), <- (bj_i _ _ HB). apply nth_error_Some. congruence.
Qed.

Definition sw (i j p : nat) : nat := if Nat.eqb p i then j else if Nat.eqb p j then i else p.

Lemma sw_invol : forall i j p, sw i j (sw i j p) = p.
Proof.
  intros. unfold sw. destruct (Nat.eqb_spec p i) as [->|Ni].
  - rewrite Nat.eqb_refl. destruct (Nat.eqb_spec j i); auto.
  - destruct (Nat.eqb_spec p j) as [->|Nj].
    + rewrite Nat.eqb_refl. auto.
    + destruct (Nat.eqb_spec p i); [congruence|]. destruct (Nat.eqb_spec p j); congruence.
Qed.

(** q' is q with positions renamed by a self-inverse bijection of 1..n that fixes all
    positions above c. *)
Record Moved (q q' : pq) (n c : nat) : Prop := {
  mv_bij : Bij q' n;
  mv_max : q_max T q' = q_max T q;
  mv_cur : q_cur T q' = q_cur T q;
  mv_prio : q_prio T q' = q_prio T q;
  mv_above : forall p, c < p -> nth_error (q_heap T q') p = nth_error (q_heap T q) p;
  mv_in : forall x, in_q q' x <-> in_q q x }.

Lemma Moved_refl : forall q n c, Bij q n -> Moved q q n c.
Proof. intros. constructor; auto. tauto. Qed.

Lemma Moved_trans : forall q1 q2 q3 n c, Moved q1 q2 n c -> Moved q2 q3 n c -> Moved q1 q3 n c.
Proof.
  intros q1 q2 q3 n c [A1 A2 A3 A4 A5 A6] [B1 B2 B3 B4 B5 B6].
  constructor; auto; try congruence.
  - intros p Hp. rewrite B5, A5; auto.
  - intro x. rewrite B6. apply A6.
Qed.

Lemma Moved_weaken : forall q1 q2 n c c', Moved q1 q2 n c -> c <= c' -> Moved q1 q2 n c'.
Proof.
  intros q1 q2 n c c' [A1 A2 A3 A4 A5 A6] H. constructor; auto. intros p Hp. apply A5. lia.
Qed.

Lemma swap_spec : forall q n i j, Bij q n -> 1 <= i <= n -> 1 <= j <= n ->
  exists q', pq_swap T q i j = Ret q' /\ Moved q q' n (Nat.max i j) /\
    (forall p, nth_error (q_heap T q') p = nth_error (q_heap T q) (sw i j p)) /\
    (forall p, key q' p = key q (sw i j p)).
Proof.
  intros q n i j HB Hi Hj.
  pose proof HB as [L1 L2 L3 L4 HP HI H0].
  destruct (HP i Hi) as [a [Ha1 Ha2]]. destruct (HP j Hj) as [b [Hb1 Hb2]].
  assert (La : a < length (q_ind T q)) by (apply nth_error_Some; congruence).
  assert (Lb : b < length (q_ind T q)) by (apply nth_error_Some; congruence).
  unfold pq_swap. rewrite (rd_Ret _ _ _ _ Ha1). cbn [bind]. rewrite (rd_Ret _ _ _ _ Hb1). cbn [bind].
  rewrite wr_Ret by lia. cbn [bind]. rewrite wr_Ret by (rewrite length_upd; lia). cbn [bind].
  set (h2 := upd (upd (q_heap T q) i (Some b)) j (Some a)).
  assert (Hh : forall p, nth_error h2 p = nth_error (q_heap T q) (sw i j p)).
  { intro p. unfold h2, sw. destruct (Nat.eqb_spec p i) as [->|Ni].
    - destruct (Nat.eq_dec i j) as [->|Nij].
      + rewrite nth_error_upd_eq by (rewrite length_upd; lia). congruence.
      + rewrite nth_error_upd_neq by auto. rewrite nth_error_upd_eq by lia. congruence.
    - destruct (Nat.eqb_spec p j) as [->|Nj].
      + rewrite nth_error_upd_eq by (rewrite length_upd; lia). congruence.
      + rewrite !nth_error_upd_neq by auto. auto. }
  assert (Ei : nth_error h2 i = Some (Some b)).
  { rewrite Hh. unfold sw. rewrite Nat.eqb_refl. auto. }
  assert (Ej : nth_error h2 j = Some (Some a)).
  { rewrite Hh. unfold sw. rewrite Nat.eqb_refl. destruct (Nat.eqb_spec j i); subst; congruence. }
  rewrite (rd_Ret _ _ _ _ Ei). cbn [bind wri]. rewrite wr_Ret by lia. cbn [bind].
  rewrite (rd_Ret _ _ _ _ Ej). cbn [bind wri]. rewrite wr_Ret by (rewrite length_upd; lia). cbn [bind].
  set (ind2 := upd (upd (q_ind T q) b (Some i)) a (Some j)).
  assert (Hab : a = b <-> i = j).
  { split; intro E; [subst; congruence|subst; congruence]. }
  assert (Hind : forall x p, nth_error ind2 x = Some (Some p) <-> nth_error (q_ind T q) x = Some (Some (sw i j p))).
  { assert (Hswi : sw i j i = j) by (unfold sw; rewrite Nat.eqb_refl; auto).
    assert (Hswj : sw i j j = i).
    { unfold sw. rewrite Nat.eqb_refl. destruct (Nat.eqb_spec j i); auto. }
    intros x p. unfold ind2.
    destruct (Nat.eq_dec x a) as [->|Na].
    - rewrite nth_error_upd_eq by (rewrite length_upd; lia). rewrite Ha2.
      split; intro E; injection E as E.
      + subst p. rewrite Hswj. auto.
      + f_equal. f_equal. rewrite <- (sw_invol i j p). rewrite <- E. auto.
    - rewrite nth_error_upd_neq by auto. destruct (Nat.eq_dec x b) as [->|Nb].
      + rewrite nth_error_upd_eq by lia. rewrite Hb2. split; intro E; injection E as E.
        * subst p. rewrite Hswi. auto.
        * f_equal. f_equal. rewrite <- (sw_invol i j p). rewrite <- E. auto.
      + rewrite nth_error_upd_neq by auto.
        assert (Hnot : forall q0, nth_error (q_ind T q) x = Some (Some q0) -> q0 <> i /\ q0 <> j).
        { intros q0 Hq. apply HI in Hq. destruct Hq as [_ Hq]. split; intros ->; congruence. }
        split; intro E.
        * destruct (Hnot _ E) as [N1 N2]. unfold sw.
          destruct (Nat.eqb_spec p i); [congruence|]. destruct (Nat.eqb_spec p j); [congruence|]. auto.
        * destruct (Hnot _ E) as [N1 N2]. revert E N1 N2. unfold sw.
          destruct (Nat.eqb_spec p i); [congruence|]. destruct (Nat.eqb_spec p j); [congruence|]. auto. }
  assert (Hrange : forall p, 1 <= p <= n -> 1 <= sw i j p <= n).
  { intros p Hp. unfold sw. destruct (Nat.eqb_spec p i); auto. destruct (Nat.eqb_spec p j); auto. }
  eexists. split; [reflexivity|]. split; [|split].
  - constructor; cbn; auto.
    + constructor; cbn; auto; try (unfold h2, ind2; rewrite ?length_upd; auto; fail).
      * intros p Hp. destruct (HP (sw i j p) (Hrange p Hp)) as [x [X1 X2]].
        exists x. rewrite Hh. split; auto. apply Hind. auto.
      * intros x p E. apply Hind in E. apply HI in E. destruct E as [E1 E2].
        rewrite Hh. split; auto. rewrite <- (sw_invol i j p). apply Hrange. auto.
      * rewrite Hh. unfold sw. destruct (Nat.eqb_spec 0 i); [lia|]. destruct (Nat.eqb_spec 0 j); [lia|]. auto.
    + intros p Hp. rewrite Hh. unfold sw.
      destruct (Nat.eqb_spec p i); [lia|]. destruct (Nat.eqb_spec p j); [lia|]. auto.
    + intro x. unfold in_q. cbn. split; intros [p Hp].
      * apply Hind in Hp. eauto.
      * exists (sw i j p). apply Hind. rewrite sw_invol. auto.
  - cbn. auto.
  - intro p. unfold key. cbn. rewrite Hh. reflexivity.
Qed.

(** ** Heap order *)
Definition ok (q : pq) (a b : nat) : Prop := lt (key q b) (key q a) = false.

Definition HeapO (q : pq) : Prop := forall p, 2 <= p <= q_cur T q -> ok q (Nat.div2 p) p.

Definition UpInv (q : pq) (k : nat) : Prop :=
  (forall p, 2 <= p <= q_cur T q -> p <> k -> ok q (Nat.div2 p) p) /\
  (forall p, 2 <= p <= q_cur T q -> Nat.div2 p = k -> 2 <= k -> ok q (Nat.div2 k) p).

Definition DownInv (q : pq) (k : nat) : Prop :=
  (forall p, 2 <= p <= q_cur T q -> Nat.div2 p <> k -> ok q (Nat.div2 p) p) /\
  (forall p, 2 <= p <= q_cur T q -> Nat.div2 p = k -> 2 <= k -> ok q (Nat.div2 k) p).

Definition HoleInv (q : pq) (k : nat) : Prop :=
  (forall p, 2 <= p <= q_cur T q -> p <> k -> Nat.div2 p <> k -> ok q (Nat.div2 p) p) /\
  (forall p, 2 <= p <= q_cur T q -> Nat.div2 p = k -> 2 <= k -> ok q (Nat.div2 k) p).

Lemma div2_lt : forall k, 1 <= k -> Nat.div2 k < k.
Proof. intros k H. apply Nat.lt_div2. lia. Qed.
Lemma div2_ge1 : forall k, 2 <= k -> 1 <= Nat.div2 k.
Proof. intros k H. destruct k as [|[|k]]; simpl; lia. Qed.

Lemma div2_cases : forall p k, Nat.div2 p = k <-> p = 2 * k \/ p = 2 * k + 1.
Proof.
  intros p k. pose proof (Nat.div2_odd p) as H. destruct (Nat.odd p); simpl in H; split; intro; lia.
Qed.

(** One upward swap from a hole. *)
Lemma hole_swap_up : forall q q' k, 2 <= k -> k <= q_cur T q -> HoleInv q k ->
  lt (key q k) (key q (Nat.div2 k)) = true ->
  q_cur T q' = q_cur T q ->
  (forall p, key q' p = key q (sw k (Nat.div2 k) p)) ->
  UpInv q' (Nat.div2 k).
Proof.
  intros q q' k Hk Hkc [H1 H2] Hlt Hc Hkey. rewrite <- Hc in *.
  pose proof (div2_lt k ltac:(lia)) as Hd. pose proof (div2_ge1 k Hk) as Hd1.
  assert (Skk : sw k (Nat.div2 k) k = Nat.div2 k) by (unfold sw; rewrite Nat.eqb_refl; auto).
  assert (Skh : sw k (Nat.div2 k) (Nat.div2 k) = k).
  { unfold sw. rewrite Nat.eqb_refl. destruct (Nat.eqb_spec (Nat.div2 k) k); lia. }
  assert (Soth : forall p, p <> k -> p <> Nat.div2 k -> sw k (Nat.div2 k) p = p).
  { intros p N1 N2. unfold sw. destruct (Nat.eqb_spec p k); [lia|]. destruct (Nat.eqb_spec p (Nat.div2 k)); [lia|]. auto. }
  split.
  - intros p Hp Np. unfold ok. rewrite !Hkey.
    destruct (Nat.eq_dec p k) as [->|Npk].
    + rewrite Skk, Skh. apply (lt_asym T lt swo). auto.
    + rewrite (Soth p) by auto.
      destruct (Nat.eq_dec (Nat.div2 p) k) as [E|Nk].
      * rewrite E, Skk. apply H2; auto.
      * destruct (Nat.eq_dec (Nat.div2 p) (Nat.div2 k)) as [E|Nh].
        -- rewrite E, Skh. apply (le_trans _ (key q (Nat.div2 k))).
           ++ apply (lt_asym T lt swo). auto.
           ++ rewrite <- E. apply H1; auto.
        -- rewrite Soth by auto. apply H1; auto.
  - intros p Hp Ep Hh. unfold ok. rewrite !Hkey.
    pose proof (div2_lt (Nat.div2 k) ltac:(lia)) as Hdd.
    rewrite (Soth (Nat.div2 (Nat.div2 k))) by lia.
    assert (G : ok q (Nat.div2 (Nat.div2 k)) (Nat.div2 k)) by (apply H1; lia).
    destruct (Nat.eq_dec p k) as [->|Npk].
    + rewrite Skk. apply G.
    + destruct (Nat.eq_dec p (Nat.div2 k)) as [->|Nph].
      * exfalso. lia.
      * rewrite Soth by auto. eapply le_trans; [apply G|]. rewrite <- Ep. apply H1; auto. lia.
Qed.

Lemma UpInv_Hole : forall q k, UpInv q k -> HoleInv q k.
Proof. intros q k [H1 H2]. split; auto. Qed.
Lemma HeapO_Down : forall q k, HeapO q -> DownInv q k.
Proof.
  intros q k H. split; [intros; apply H; auto|].
  intros p Hp E Hk. eapply le_trans; [apply (H k); destruct (proj1 (div2_cases p k) E); lia|].
  rewrite <- E. apply H. auto.
Qed.

Lemma UpInv_done : forall q k, UpInv q k -> (k < 2 \/ q_cur T q < k \/ ok q (Nat.div2 k) k) -> HeapO q.
Proof.
  intros q k [H1 H2] Hd p Hp. destruct (Nat.eq_dec p k) as [->|N]; auto.
  destruct Hd as [Hd|[Hd|Hd]]; auto; lia.
Qed.

Lemma bubbleUp_up : forall fuel q n k, Bij q n -> 1 <= k <= n -> q_cur T q <= n -> k <= q_cur T q -> k < fuel ->
  UpInv q k ->
  exists q', pq_bubbleUp T lt fuel q k = Ret q' /\ Moved q q' n k /\ HeapO q'.
Proof.
  induction fuel as [|fuel IH]; intros q n k HB Hk Hcn Hkc Hf HU; [lia|].
  cbn [pq_bubbleUp]. destruct (Nat.ltb_spec 1 k) as [H1|H1].
  - pose proof (div2_lt k ltac:(lia)) as Hd. pose proof (div2_ge1 k H1) as Hd1.
    rewrite (key_spec q n) by (auto; lia). cbn [bind]. rewrite (key_spec q n) by auto. cbn [bind].
    rewrite gt_lt. destruct (lt (key q k) (key q (Nat.div2 k))) eqn:E.
    + destruct (swap_spec q n k (Nat.div2 k) HB Hk ltac:(lia)) as [q1 [E1 [M1 [_ K1]]]].
      rewrite E1. cbn [bind].
      destruct (IH q1 n (Nat.div2 k)) as [q2 [E2 [M2 HO]]]; auto; try lia.
      * apply M1.
      * rewrite (mv_cur _ _ _ _ M1). auto.
      * rewrite (mv_cur _ _ _ _ M1). lia.
      * apply (hole_swap_up q q1 k); auto.
        -- apply UpInv_Hole. auto.
        -- apply M1.
      * exists q2. split; auto. split; auto.
        eapply Moved_trans; [eapply Moved_weaken; [apply M1|lia]|eapply Moved_weaken; [apply M2|lia]].
    + exists q. split; auto. split; [apply Moved_refl; auto|]. eapply UpInv_done; eauto.
  - exists q. split; auto. split; [apply Moved_refl; auto|]. eapply UpInv_done; eauto. left. lia.
Qed.

(** bubbleUp from a hole: afterwards bubbleDown from the same position restores order. *)
Lemma bubbleUp_hole : forall fuel q n k, Bij q n -> 1 <= k <= n -> q_cur T q <= n -> k <= q_cur T q -> k < fuel ->
  HoleInv q k ->
  exists q', pq_bubbleUp T lt fuel q k = Ret q' /\ Moved q q' n k /\ DownInv q' k.
Proof.
  intros [|fuel] q n k HB Hk Hcn Hkc Hf HU; [lia|].
  cbn [pq_bubbleUp]. destruct (Nat.ltb_spec 1 k) as [H1|H1].
  - pose proof (div2_lt k ltac:(lia)) as Hd. pose proof (div2_ge1 k H1) as Hd1.
    rewrite (key_spec q n) by (auto; lia). cbn [bind]. rewrite (key_spec q n) by auto. cbn [bind].
    rewrite gt_lt. destruct (lt (key q k) (key q (Nat.div2 k))) eqn:E.
    + destruct (swap_spec q n k (Nat.div2 k) HB Hk ltac:(lia)) as [q1 [E1 [M1 [_ K1]]]].
      rewrite E1. cbn [bind].
      destruct (bubbleUp_up fuel q1 n (Nat.div2 k)) as [q2 [E2 [M2 HO]]]; auto; try lia.
      * apply M1.
      * rewrite (mv_cur _ _ _ _ M1). auto.
      * rewrite (mv_cur _ _ _ _ M1). lia.
      * apply (hole_swap_up q q1 k); auto. apply M1.
      * exists q2. split; auto. split; [|apply HeapO_Down; auto].
        eapply Moved_trans; [eapply Moved_weaken; [apply M1|lia]|eapply Moved_weaken; [apply M2|lia]].
    + exists q. split; auto. split; [apply Moved_refl; auto|].
      destruct HU as [U1 U2]. split; auto.
      intros p Hp Np. destruct (Nat.eq_dec p k) as [->|N]; auto.
  - exists q. split; auto. split; [apply Moved_refl; auto|].
    destruct HU as [U1 U2]. split; auto. intros p Hp Np. apply U1; auto. lia.
Qed.

Lemma bubbleDown_spec : forall fuel q n k, Bij q n -> 1 <= k <= n -> q_cur T q <= n ->
  q_cur T q < k + fuel -> 0 < fuel ->
  DownInv q k ->
  exists q', pq_bubbleDown T lt fuel q k = Ret q' /\ Moved q q' n (q_cur T q) /\ HeapO q'.
Proof.
  induction fuel as [|fuel IH]; intros q n k HB Hk Hcn Hf Hf0 HD; [lia|].
  cbn [pq_bubbleDown]. pose proof HD as [D1 D2].
  destruct (Nat.leb_spec (2 * k) (q_cur T q)) as [H1|H1].
  - assert (Hj : exists j, (if 2 * k <? q_cur T q
       then a <- pq_key T q (2 * k);; b <- pq_key T q (2 * k + 1);;
            Ret (if pq_gt T lt a b then 2 * k + 1 else 2 * k)
       else Ret (2 * k)) = Ret j /\ (j = 2 * k \/ j = 2 * k + 1) /\ j <= q_cur T q /\
       forall p, 2 <= p <= q_cur T q -> Nat.div2 p = k -> ok q j p).
    { destruct (Nat.ltb_spec (2 * k) (q_cur T q)) as [H2|H2].
      - rewrite (key_spec q n) by (auto; lia). cbn [bind].
        rewrite (key_spec q n) by (auto; lia). cbn [bind]. rewrite gt_lt.
        destruct (lt (key q (2 * k + 1)) (key q (2 * k))) eqn:E.
        + exists (2 * k + 1). split; auto. split; auto. split; [lia|].
          intros p Hp Ep. apply div2_cases in Ep. destruct Ep as [->| ->]; unfold ok.
          * apply (lt_asym T lt swo). auto.
          * apply (swo_irrefl _ _ swo).
        + exists (2 * k). split; auto. split; auto. split; [lia|].
          intros p Hp Ep. apply div2_cases in Ep. destruct Ep as [->| ->]; unfold ok; auto.
          apply (swo_irrefl _ _ swo).
      - exists (2 * k). split; auto. split; auto. split; [lia|].
        intros p Hp Ep. apply div2_cases in Ep. destruct Ep as [->| ->]; unfold ok; [|lia].
        apply (swo_irrefl _ _ swo). }
    destruct Hj as [j [Ej [Hjc [Hjn Hmin]]]]. rewrite Ej. cbn [bind].
    rewrite (key_spec q n) by auto. cbn [bind]. rewrite (key_spec q n) by (auto; lia). cbn [bind].
    rewrite leqt_lt. destruct (lt (key q j) (key q k)) eqn:E; cbn [negb].
    + assert (Djk : Nat.div2 j = k) by (apply div2_cases; auto).
      destruct (swap_spec q n k j HB Hk ltac:(lia)) as [q1 [E1 [M1 [_ K1]]]].
      rewrite E1. cbn [bind]. pose proof (mv_cur _ _ _ _ M1) as Ec.
      destruct (IH q1 n j) as [q2 [E2 [M2 HO]]]; auto; try lia.
      * apply M1.
      * assert (Skk : sw k j k = j) by (unfold sw; rewrite Nat.eqb_refl; auto).
        assert (Skj : sw k j j = k).
        { unfold sw. rewrite Nat.eqb_refl. destruct (Nat.eqb_spec j k); lia. }
        assert (Soth : forall p, p <> k -> p <> j -> sw k j p = p).
        { intros p N1 N2. unfold sw. destruct (Nat.eqb_spec p k); [lia|]. destruct (Nat.eqb_spec p j); [lia|]. auto. }
        split; rewrite Ec.
        -- intros p Hp Np. unfold ok. rewrite !K1.
           destruct (Nat.eq_dec p j) as [->|Npj].
           ++ rewrite Djk, Skj, Skk. apply (lt_asym T lt swo). auto.
           ++ destruct (Nat.eq_dec (Nat.div2 p) k) as [Ep|Nk].
              ** assert (p <> k) by (apply div2_cases in Ep; lia).
                 rewrite Ep, Skk, Soth by auto. apply Hmin; auto.
              ** rewrite (Soth (Nat.div2 p)) by auto.
                 destruct (Nat.eq_dec p k) as [->|Npk].
                 --- rewrite Skk. apply D2; auto; lia.
                 --- rewrite Soth by auto. apply D1; auto.
        -- intros p Hp Ep Hj2. rewrite Djk. unfold ok. rewrite !K1.
           assert (p <> k /\ p <> j) by (apply div2_cases in Ep; lia).
           rewrite Skk, Soth by tauto. rewrite <- Ep. apply D1; auto. rewrite Ep. lia.
      * exists q2. split; auto. split; auto.
        eapply Moved_trans; [eapply Moved_weaken; [apply M1|lia]|].
        eapply Moved_weaken; [apply M2|lia].
    + exists q. split; auto. split; [apply Moved_refl; auto|].
      intros p Hp. destruct (Nat.eq_dec (Nat.div2 p) k) as [Ep|N]; auto.
      rewrite Ep. eapply le_trans; [apply E|]. apply Hmin; auto.
  - exists q. split; auto. split; [apply Moved_refl; auto|].
    intros p Hp. apply D1; auto. intro Ep. apply div2_cases in Ep. lia.
Qed.

(** ** Refinement *)
Record R (mx : nat) (q : pq) (M : pmap T) : Prop := {
  r_max : q_max T q = mx;
  r_bij : Bij q (q_cur T q);
  r_heap : HeapO q;
  r_in : forall i, in_q q i <-> M i <> None;
  r_prio : forall i p, M i = Some p -> eqv (nth i (q_prio T q) d) p }.

Lemma in_q_range : forall q n i, Bij q n -> in_q q i -> i <= q_max T q.
Proof.
  intros q n i HB [p Hp]. assert (i < length (q_ind T q)) by (apply nth_error_Some; congruence).
  rewrite (bj_i _ _ HB) in H. lia.
Qed.

Lemma R_card : forall mx q M, R mx q M -> pm_card T mx M = q_cur T q.
Proof.
  intros mx q M HR. pose proof (r_bij _ _ _ HR) as HB. unfold pm_card.
  pose (g := fun p => match nth_error (q_heap T q) p with Some (Some i) => i | _ => 0 end).
  assert (Hg : forall p, 1 <= p <= q_cur T q -> nth_error (q_heap T q) p = Some (Some (g p)) /\
                nth_error (q_ind T q) (g p) = Some (Some p)).
  { intros p Hp. destruct (bj_pos _ _ HB p Hp) as [i [H1 H2]]. unfold g. rewrite H1. auto. }
  assert (Hlen : length (map g (seq 1 (q_cur T q))) = q_cur T q) by (rewrite map_length, seq_length; auto).
  rewrite <- Hlen. apply NoDup_same_length.
  - apply NoDup_filter, seq_NoDup.
  - apply NoDup_map_in; [apply seq_NoDup|].
    intros x y Hx Hy E. apply in_seq in Hx. apply in_seq in Hy.
    destruct (Hg x) as [_ A]; [lia|]. destruct (Hg y) as [_ B]; [lia|]. rewrite E in A. congruence.
  - intro x. rewrite filter_In, in_seq, in_map_iff. split.
    + intros [_ Hx]. assert (Hin : in_q q x) by (apply (r_in _ _ _ HR); destruct (M x); congruence).
      destruct Hin as [p Hp]. apply (bj_ind _ _ HB) in Hp. destruct Hp as [H1 H2].
      exists p. split; [unfold g; rewrite H2; auto|]. apply in_seq. lia.
    + intros [p [E Hp]]. apply in_seq in Hp. destruct (Hg p) as [_ A]; [lia|]. rewrite E in A.
      assert (Hin : in_q q x) by (exists p; auto). split.
      * pose proof (in_q_range _ _ _ HB Hin). rewrite (r_max _ _ _ HR) in H. lia.
      * apply (r_in _ _ _ HR) in Hin. destruct (M x); congruence.
Qed.

Lemma key_item : forall q n i p, Bij q n -> nth_error (q_ind T q) i = Some (Some p) ->
  key q p = nth i (q_prio T q) d.
Proof.
  intros q n i p HB H. apply (bj_ind _ _ HB) in H. destruct H as [_ H]. unfold key. rewrite H. auto.
Qed.

Lemma HeapO_root : forall q, HeapO q -> forall p, 1 <= p <= q_cur T q -> ok q 1 p.
Proof.
  intros q H p. induction p as [p IH] using lt_wf_ind. intro Hp.
  destruct (Nat.eq_dec p 1) as [->|N]; [apply (swo_irrefl _ _ swo)|].
  pose proof (div2_lt p ltac:(lia)). pose proof (div2_ge1 p ltac:(lia)).
  eapply le_trans; [apply (IH (Nat.div2 p)); lia|]. apply H. lia.
Qed.

Lemma eqv_nlt : forall a a' b b', eqv a a' -> eqv b b' -> lt a b = false -> lt a' b' = false.
Proof.
  intros a a' b b' Ea Eb H. destruct (lt a' b') eqn:E; auto.
  assert (lt a b = true); [|congruence].
  apply (eqv_lt_l T lt swo a'); [apply (eqv_sym T lt); auto|].
  apply (eqv_lt_r T lt swo b'); [apply (eqv_sym T lt); auto|]. auto.
Qed.

Lemma R_top : forall mx q M, R mx q M -> 0 < q_cur T q ->
  exists i, nth_error (q_heap T q) 1 = Some (Some i) /\ nth_error (q_ind T q) i = Some (Some 1) /\ minimal T lt M i.
Proof.
  intros mx q M HR Hc. pose proof (r_bij _ _ _ HR) as HB.
  destruct (bj_pos _ _ HB 1) as [i [H1 H2]]; [lia|]. exists i. split; auto. split; auto.
  assert (Hin : in_q q i) by (exists 1; auto). apply (r_in _ _ _ HR) in Hin.
  destruct (M i) as [p|] eqn:E; [|congruence]. exists p. split; auto.
  intros j pj Ej. assert (Hj : in_q q j) by (apply (r_in _ _ _ HR); congruence).
  destruct Hj as [pos Hpos]. pose proof (bj_ind _ _ HB _ _ Hpos) as [Hr _].
  pose proof (HeapO_root q (r_heap _ _ _ HR) pos Hr) as G. unfold ok in G.
  rewrite (key_item _ _ _ _ HB Hpos), (key_item _ _ _ _ HB H2) in G.
  eapply eqv_nlt; [| |apply G]; apply (r_prio _ _ _ HR); auto.
Qed.

Lemma R_init : forall mx, R mx (pq_init T d mx) (pm_empty T).
Proof.
  intro mx.
  assert (Hnone : forall i p, nth_error (repeat (@None nat) (S mx)) i = Some (Some p) -> False).
  { intros i p H. apply nth_error_In in H. apply repeat_spec in H. discriminate. }
  constructor; try (cbn; auto; fail).
  - constructor; try (cbn; rewrite repeat_length; auto; fail).
    + cbn. lia.
    + cbn. intros p Hp. lia.
    + intros i p H. exfalso. apply (Hnone i p H).
    + reflexivity.
  - intros p Hp. cbn in Hp. lia.
  - intro i. unfold pm_empty. split; [|congruence]. intros [p H]. exfalso. apply (Hnone i p H).
  - intros i p H. discriminate.
Qed.

(** Setting one priority. *)
Lemma Bij_setprio : forall q n i p, Bij q n -> i <= q_max T q ->
  Bij (mkPq T (q_max T q) (q_cur T q) (q_heap T q) (q_ind T q) (upd (q_prio T q) i p)) n.
Proof. intros q n i p [H1 H2 H3 H4 H5 H6 H7] Hi. constructor; cbn; auto. rewrite length_upd. auto. Qed.

Lemma key_setprio : forall q n i p x, Bij q n -> i <= q_max T q ->
  nth_error (q_ind T q) i = Some (Some x) ->
  let q' := mkPq T (q_max T q) (q_cur T q) (q_heap T q) (q_ind T q) (upd (q_prio T q) i p) in
  key q' x = p /\ forall y, 1 <= y <= n -> y <> x -> key q' y = key q y.
Proof.
  intros q n i p x HB Hi Hx q'. split.
  - unfold q', key. cbn. apply (bj_ind _ _ HB) in Hx. destruct Hx as [_ ->].
    apply nth_upd_eq. rewrite (bj_p _ _ HB). lia.
  - intros y Hy N. unfold q', key. cbn. destruct (bj_pos _ _ HB y Hy) as [j [H1 H2]]. rewrite H1.
    apply nth_upd_neq. intros ->. congruence.
Qed.

Lemma R_of_Moved : forall mx q q' n c M, Moved q q' n c -> q_cur T q = n -> HeapO q' -> q_max T q = mx ->
  (forall i, in_q q i <-> M i <> None) ->
  (forall i p, M i = Some p -> eqv (nth i (q_prio T q) d) p) ->
  R mx q' M.
Proof.
  intros mx q q' n c M [B1 B2 B3 B4 B5 B6] Hc HO Hm Hin Hpr. constructor.
  - congruence.
  - rewrite B3, Hc. auto.
  - auto.
  - intro i. rewrite B6. auto.
  - intros i p H. rewrite B4. auto.
Qed.

Lemma R_change : forall mx q M i p, R mx q M -> M i <> None ->
  exists q', pq_changePriority T lt q i p = Ret q' /\ R mx q' (pm_set T M i (Some p)).
Proof.
  intros mx q M i p HR Hi. pose proof (r_bij _ _ _ HR) as HB.
  assert (Hin : in_q q i) by (apply (r_in _ _ _ HR); auto).
  pose proof (in_q_range _ _ _ HB Hin) as Hle. destruct Hin as [x Hx].
  pose proof (bj_ind _ _ HB _ _ Hx) as [Hxr Hxh].
  unfold pq_changePriority.
  rewrite (rd_nth _ (q_prio T q) i d) by (rewrite (bj_p _ _ HB); lia). cbn [bind].
  rewrite (rd_Ret _ _ _ _ Hx). cbn [bind].
  set (q1 := mkPq T (q_max T q) (q_cur T q) (q_heap T q) (q_ind T q) (upd (q_prio T q) i p)).
  pose proof (Bij_setprio q (q_cur T q) i p HB Hle) as HB1. fold q1 in HB1.
  destruct (key_setprio q (q_cur T q) i p x HB Hle Hx) as [K1 K2]. fold q1 in K1, K2.
  assert (Hin1 : forall j, in_q q1 j <-> pm_set T M i (Some p) j <> None).
  { intro j. unfold pm_set. change (in_q q1 j) with (in_q q j). destruct (Nat.eqb_spec j i) as [->|N].
    - split; [discriminate|]. intros _. exists x. auto.
    - apply (r_in _ _ _ HR). }
  assert (Hpr1 : forall j pj, pm_set T M i (Some p) j = Some pj -> eqv (nth j (q_prio T q1) d) pj).
  { intros j pj. unfold pm_set. cbn. destruct (Nat.eqb_spec j i) as [->|N].
    - intro E. injection E as <-. rewrite nth_upd_eq by (rewrite (bj_p _ _ HB); lia). apply (eqv_refl T lt swo).
    - intro E. rewrite nth_upd_neq by auto. apply (r_prio _ _ _ HR). auto. }
  pose proof (r_heap _ _ _ HR) as HO.
  assert (Kx : key q x = nth i (q_prio T q) d) by (eapply key_item; eauto).
  rewrite gt_lt. destruct (lt (nth i (q_prio T q) d) p) eqn:E1.
  - rewrite wr_Ret by (rewrite (bj_p _ _ HB); lia). cbn [bind pq_bubbleDown_i]. fold q1.
    destruct (bubbleDown_spec (pq_fuel T q1) q1 (q_cur T q) x) as [q2 [E2 [M2 HO2]]]; auto.
    + unfold pq_fuel. cbn. lia.
    + unfold pq_fuel. lia.
    + split.
      * intros y Hy N. change (q_cur T q1) with (q_cur T q) in Hy. unfold ok.
        pose proof (div2_lt y ltac:(lia)). pose proof (div2_ge1 y ltac:(lia)).
        rewrite (K2 (Nat.div2 y)) by (auto; lia). destruct (Nat.eq_dec y x) as [->|Ny].
        -- rewrite K1. apply (le_trans _ (key q x)); [apply HO; auto|].
           rewrite Kx. apply (lt_asym T lt swo). auto.
        -- rewrite K2 by (auto; lia). apply HO. auto.
      * intros y Hy Ey Hx2. change (q_cur T q1) with (q_cur T q) in Hy. unfold ok.
        pose proof (div2_lt x ltac:(lia)). pose proof (div2_ge1 x ltac:(lia)).
        assert (y <> x) by (apply div2_cases in Ey; lia).
        rewrite !K2 by lia. apply (HeapO_Down q x HO); auto.
    + exists q2. split; auto. eapply R_of_Moved; eauto. apply HR.
  - destruct (lt p (nth i (q_prio T q) d)) eqn:E2.
    + rewrite wr_Ret by (rewrite (bj_p _ _ HB); lia). cbn [bind pq_bubbleUp_i]. fold q1.
      destruct (bubbleUp_up (pq_fuel T q1) q1 (q_cur T q) x) as [q2 [E3 [M2 HO2]]]; auto.
      * cbn. lia.
      * unfold pq_fuel. cbn. lia.
      * split.
        -- intros y Hy N. change (q_cur T q1) with (q_cur T q) in Hy. unfold ok.
           pose proof (div2_lt y ltac:(lia)). pose proof (div2_ge1 y ltac:(lia)).
           rewrite (K2 y) by (auto; lia). destruct (Nat.eq_dec (Nat.div2 y) x) as [Ey|Ny].
           ++ rewrite Ey, K1. apply (le_trans _ (key q x)).
              ** rewrite Kx. apply (lt_asym T lt swo). auto.
              ** rewrite <- Ey. apply HO. auto.
           ++ rewrite K2 by (auto; lia). apply HO. auto.
        -- intros y Hy Ey Hx2. change (q_cur T q1) with (q_cur T q) in Hy. unfold ok.
           pose proof (div2_lt x ltac:(lia)). pose proof (div2_ge1 x ltac:(lia)).
           assert (y <> x) by (apply div2_cases in Ey; lia).
           rewrite !K2 by lia. apply (HeapO_Down q x HO); auto.
      * exists q2. split; auto. eapply R_of_Moved; eauto. apply HR.
    + exists q. split; auto. constructor; auto; try apply HR.
      intros j pj. unfold pm_set. destruct (Nat.eqb_spec j i) as [->|N].
      * intro E. injection E as <-. split; auto.
      * apply HR.
Qed.

Lemma R_push : forall mx q M i p, R mx q M -> i <= mx -> (M i <> None \/ pm_card T mx M < mx) ->
  exists q', pq_push T lt q i p = Ret q' /\ R mx q' (pm_set T M i (Some p)).
Proof.
  intros mx q M i p HR Hi Hroom. pose proof (r_bij _ _ _ HR) as HB. pose proof HB as [L1 L2 L3 L4 L5 L6 L7].
  rewrite (R_card _ _ _ HR) in Hroom. rewrite <- (r_max _ _ _ HR) in Hi, Hroom.
  unfold pq_push, pq_contains.
  destruct (nth_error_lt _ (q_ind T q) i) as [o Ho]; [lia|].
  rewrite (rd_Ret _ _ _ _ Ho). cbn [bind]. destruct o as [x|]; cbn [negb].
  - apply R_change; auto. apply (r_in _ _ _ HR). exists x. auto.
  - assert (Hni : ~ in_q q i) by (intros [y Hy]; congruence).
    assert (HM : M i = None).
    { destruct (M i) eqn:E; auto. exfalso. apply Hni. apply (r_in _ _ _ HR). congruence. }
    destruct Hroom as [Hroom|Hroom]; [congruence|].
    rewrite !wr_Ret by lia. cbn [bind].
    set (c := q_cur T q) in *.
    set (q1 := mkPq T (q_max T q) (S c) (upd (q_heap T q) (S c) (Some i))
                 (upd (q_ind T q) i (Some (S c))) (upd (q_prio T q) i p)).
    assert (HB1 : Bij q1 (S c)).
    { constructor; cbn; rewrite ?length_upd; auto.
      - intros y Hy. destruct (Nat.eq_dec y (S c)) as [->|N].
        + exists i. rewrite !nth_error_upd_eq by lia. auto.
        + destruct (L5 y) as [j [J1 J2]]; [lia|]. exists j.
          rewrite !nth_error_upd_neq by (auto || congruence). auto.
      - intros j y H. destruct (Nat.eq_dec i j) as [<-|N].
        + rewrite nth_error_upd_eq in H by lia. injection H as <-.
          split; [lia|]. rewrite nth_error_upd_eq by lia. auto.
        + rewrite nth_error_upd_neq in H by auto. apply L6 in H.
          split; [lia|]. rewrite nth_error_upd_neq by lia. tauto.
      - rewrite nth_error_upd_neq by lia. auto. }
    assert (K : forall y, 1 <= y <= c -> key q1 y = key q y).
    { intros y Hy. destruct (L5 y Hy) as [j [J1 J2]]. unfold key. cbn.
      rewrite nth_error_upd_neq by lia. rewrite J1. apply nth_upd_neq. congruence. }
    destruct (bubbleUp_up (pq_fuel T q1) q1 (S c) (S c)) as [q2 [E2 [M2 HO2]]]; auto.
    + lia.
    + unfold pq_fuel. cbn. lia.
    + split.
      * intros y Hy N. change (q_cur T q1) with (S c) in Hy. unfold ok.
        pose proof (div2_lt y ltac:(lia)). pose proof (div2_ge1 y ltac:(lia)).
        rewrite !K by lia. apply (r_heap _ _ _ HR). fold c. lia.
      * intros y Hy Ey _. change (q_cur T q1) with (S c) in Hy. apply div2_cases in Ey. lia.
    + exists q2. split; auto. eapply R_of_Moved; eauto.
      * apply HR.
      * intro j. unfold in_q, pm_set. cbn. destruct (Nat.eqb_spec j i) as [->|N].
        -- rewrite nth_error_upd_eq by lia. split; [discriminate|eauto].
        -- rewrite nth_error_upd_neq by auto. apply (r_in _ _ _ HR).
      * intros j pj. unfold pm_set. cbn. destruct (Nat.eqb_spec j i) as [->|N].
        -- intro E. injection E as <-. rewrite nth_upd_eq by lia. apply (eqv_refl T lt swo).
        -- rewrite nth_upd_neq by auto. apply (r_prio _ _ _ HR).
Qed.

(** Removing the item at the position just behind the heap. *)
Lemma R_remove : forall mx q c i M h', Bij q (S c) -> q_cur T q = c -> HeapO q -> q_max T q = mx ->
  nth_error (q_heap T q) (S c) = Some (Some i) ->
  (forall j, in_q q j <-> M j <> None) ->
  (forall j p, M j = Some p -> eqv (nth j (q_prio T q) d) p) ->
  length h' = length (q_heap T q) ->
  (forall p, p <> S c -> nth_error h' p = nth_error (q_heap T q) p) ->
  R mx (mkPq T (q_max T q) (q_cur T q) h' (upd (q_ind T q) i None) (q_prio T q)) (pm_set T M i None).
Proof.
  intros mx q c i M h' HB Hc HO Hm Hi Hin Hpr Hlen Hh.
  pose proof HB as [L1 L2 L3 L4 L5 L6 L7].
  assert (Hii : nth_error (q_ind T q) i = Some (Some (S c))).
  { destruct (L5 (S c)) as [j [J1 J2]]; [lia|]. congruence. }
  assert (Hil : i < length (q_ind T q)) by (apply nth_error_Some; congruence).
  constructor.
  - auto.
  - cbn [q_cur]. rewrite Hc. constructor; cbn; rewrite ?length_upd; auto; try lia.
    + intros y Hy. destruct (L5 y) as [j [J1 J2]]; [lia|]. exists j. rewrite Hh by lia. split; auto.
      rewrite nth_error_upd_neq; auto. intros ->. rewrite Hii in J2. injection J2. lia.
    + intros j y H. destruct (Nat.eq_dec i j) as [<-|N].
      * rewrite nth_error_upd_eq in H by lia. discriminate.
      * rewrite nth_error_upd_neq in H by auto. pose proof (L6 _ _ H) as [A B].
        assert (y <> S c) by (intros ->; congruence).
        split; [lia|]. rewrite Hh by auto. auto.
    + rewrite Hh by lia. auto.
  - intros p Hp. cbn in Hp. rewrite Hc in Hp. unfold ok, key. cbn.
    pose proof (div2_lt p ltac:(lia)). rewrite !Hh by lia. apply HO. lia.
  - intro j. unfold in_q, pm_set. cbn. destruct (Nat.eqb_spec j i) as [->|N].
    + rewrite nth_error_upd_eq by lia. split; [intros [? E]; discriminate|congruence].
    + rewrite nth_error_upd_neq by auto. apply Hin.
  - intros j p. unfold pm_set. cbn. destruct (Nat.eqb_spec j i) as [->|N]; [discriminate|]. apply Hpr.
Qed.

Lemma R_pop : forall mx q M, R mx q M -> 0 < q_cur T q ->
  exists q' i, pq_pop T lt q = Ret q' /\ pq_top T q = Ret (Some i) /\ minimal T lt M i /\
    R mx q' (pm_set T M i None).
Proof.
  intros mx q M HR Hc. pose proof (r_bij _ _ _ HR) as HB.
  destruct (R_top _ _ _ HR Hc) as [i [H1 [H2 Hmin]]].
  unfold pq_pop, pq_top. rewrite (rd_Ret _ _ _ _ H1). cbn [bind].
  destruct (q_cur T q) as [|c] eqn:Ec; [lia|].
  destruct (swap_spec q (S c) 1 (S c) HB) as [q1 [E1 [M1 [Hh1 K1]]]]; try lia.
  rewrite E1. cbn [bind].
  set (q2 := mkPq T (q_max T q1) c (q_heap T q1) (q_ind T q1) (q_prio T q1)).
  assert (HB2 : Bij q2 (S c)) by (destruct (mv_bij _ _ _ _ M1); constructor; auto).
  destruct (bubbleDown_spec (pq_fuel T q2) q2 (S c) 1) as [q3 [E3 [M3 HO3]]]; auto; try lia.
  - unfold pq_fuel. cbn. lia.
  - unfold pq_fuel. lia.
  - split.
    + intros p Hp N. change (q_cur T q2) with c in Hp. unfold ok.
      change (key q2) with (key q1). rewrite !K1.
      pose proof (div2_lt p ltac:(lia)). pose proof (div2_ge1 p ltac:(lia)).
      unfold sw. destruct (Nat.eqb_spec p 1); [lia|]. destruct (Nat.eqb_spec p (S c)); [lia|].
      destruct (Nat.eqb_spec (Nat.div2 p) 1); [lia|]. destruct (Nat.eqb_spec (Nat.div2 p) (S c)); [lia|].
      apply (r_heap _ _ _ HR). lia.
    + intros; lia.
  - rewrite E3. cbn [bind wri].
    assert (Hi3 : nth_error (q_heap T q3) (S c) = Some (Some i)).
    { rewrite (mv_above _ _ _ _ M3) by (cbn; lia). cbn. rewrite Hh1. unfold sw.
      destruct (Nat.eqb_spec (S c) 1) as [e|e]; [rewrite e; auto|]. rewrite Nat.eqb_refl. auto. }
    assert (Hil : i < length (q_ind T q3)).
    { rewrite (bj_i _ _ (mv_bij _ _ _ _ M3)). destruct (bj_pos _ _ (mv_bij _ _ _ _ M3) (S c)) as [j [J1 J2]]; [lia|].
      rewrite <- (bj_i _ _ (mv_bij _ _ _ _ M3)). apply nth_error_Some. congruence. }
    rewrite wr_Ret by auto. cbn [bind].
    assert (Hc3 : q_cur T q3 = c) by (rewrite (mv_cur _ _ _ _ M3); auto). 
    rewrite wr_Ret by (rewrite Hc3; apply nth_error_Some; congruence). cbn [bind].
    eexists. exists i. split; [reflexivity|]. split; [reflexivity|]. split; auto.
    apply (R_remove mx q3 c i M).
    + apply M3.
    + auto.
    + auto.
    + rewrite (mv_max _ _ _ _ M3). cbn. rewrite (mv_max _ _ _ _ M1). apply HR.
    + auto.
    + intro j. rewrite (mv_in _ _ _ _ M3). change (in_q q2 j) with (in_q q1 j). rewrite (mv_in _ _ _ _ M1). apply HR.
    + intros j p Hj. rewrite (mv_prio _ _ _ _ M3). cbn. rewrite (mv_prio _ _ _ _ M1). apply (r_prio _ _ _ HR); auto.
    + apply length_upd.
    + intros p Np. rewrite Hc3. apply nth_error_upd_neq. auto.
Qed.

Lemma R_delete : forall mx q M i, R mx q M -> M i <> None ->
  exists q', pq_deleteItem T lt q i = Ret q' /\ R mx q' (pm_set T M i None).
Proof.
  intros mx q M i HR Hi. pose proof (r_bij _ _ _ HR) as HB.
  assert (Hin : in_q q i) by (apply (r_in _ _ _ HR); auto). destruct Hin as [x Hx].
  pose proof (bj_ind _ _ HB _ _ Hx) as [Hxr Hxh].
  pose proof (r_heap _ _ _ HR) as HO.
  unfold pq_deleteItem. rewrite (rd_Ret _ _ _ _ Hx). cbn [bind].
  destruct (q_cur T q) as [|c] eqn:Ec; [lia|].
  destruct (swap_spec q (S c) x (S c) HB) as [q1 [E1 [M1 [Hh1 K1]]]]; try lia.
  rewrite E1. cbn [bind].
  set (q2 := mkPq T (q_max T q1) c (q_heap T q1) (q_ind T q1) (q_prio T q1)).
  assert (HB2 : Bij q2 (S c)) by (destruct (mv_bij _ _ _ _ M1); constructor; auto).
  assert (Hi2 : nth_error (q_heap T q2) (S c) = Some (Some i)).
  { cbn. rewrite Hh1. unfold sw. destruct (Nat.eqb_spec (S c) x) as [e|e]; [rewrite e; auto|].
    rewrite Nat.eqb_refl. auto. }
  assert (Hup : exists q3, pq_bubbleUp T lt (pq_fuel T q2) q2 x = Ret q3 /\ Moved q2 q3 (S c) c /\ DownInv q3 x).
  { destruct (Nat.eq_dec x (S c)) as [->|Nx].
    - (* the last item is removed: bubbleUp does not move it *)
      assert (Kid : forall p, key q2 p = key q p).
      { intro p. change (key q2 p) with (key q1 p). rewrite K1. f_equal. unfold sw.
        destruct (Nat.eqb_spec p (S c)); auto. }
      exists q2. split; [|split].
      + unfold pq_fuel. cbn [pq_bubbleUp]. destruct (Nat.ltb_spec 1 (S c)) as [H1|H1]; auto.
        pose proof (div2_lt (S c) ltac:(lia)). pose proof (div2_ge1 (S c) ltac:(lia)).
        rewrite (key_spec q2 (S c)) by (auto; lia). cbn [bind].
        rewrite (key_spec q2 (S c)) by (auto; lia). cbn [bind].
        rewrite gt_lt, !Kid. assert (G : ok q (Nat.div2 (S c)) (S c)) by (apply HO; lia).
        unfold ok in G. rewrite G. auto.
      + apply Moved_refl. auto.
      + apply HeapO_Down. intros p Hp. change (q_cur T q2) with c in Hp. unfold ok. rewrite !Kid.
        apply HO. lia.
    - destruct (bubbleUp_hole (pq_fuel T q2) q2 (S c) x) as [q3 [E3 [M3 D3]]]; auto.
      + cbn. try lia.
      + unfold pq_fuel. cbn. lia.
      + assert (Soth : forall p, p <> x -> p <= c -> sw x (S c) p = p).
        { intros p N1 N2. unfold sw. destruct (Nat.eqb_spec p x); [lia|]. destruct (Nat.eqb_spec p (S c)); [lia|]. auto. }
        split.
        * intros p Hp N1 N2. change (q_cur T q2) with c in Hp. unfold ok.
          change (key q2) with (key q1). rewrite !K1.
          pose proof (div2_lt p ltac:(lia)). rewrite !Soth by lia. apply HO. lia.
        * intros p Hp Ep Hx2. change (q_cur T q2) with c in Hp. unfold ok.
          change (key q2) with (key q1). rewrite !K1.
          pose proof (div2_lt x ltac:(lia)). assert (p <> x) by (apply div2_cases in Ep; lia).
          rewrite !Soth by lia. apply (HeapO_Down q x HO); auto. lia.
      + exists q3. split; auto. split; auto. eapply Moved_weaken; [apply M3|lia]. }
  destruct Hup as [q3 [E3 [M3 D3]]]. rewrite E3. cbn [bind].
  assert (Hc3 : q_cur T q3 = c) by (rewrite (mv_cur _ _ _ _ M3); auto).
  destruct (bubbleDown_spec (pq_fuel T q3) q3 (S c) x) as [q4 [E4 [M4 HO4]]]; auto; try lia.
  - apply M3.
  - unfold pq_fuel. lia.
  - unfold pq_fuel. lia.
  - rewrite E4. cbn [bind]. rewrite Hc3 in M4.
    assert (Hi4 : nth_error (q_heap T q4) (S c) = Some (Some i)).
    { rewrite (mv_above _ _ _ _ M4) by lia. rewrite (mv_above _ _ _ _ M3) by lia. auto. }
    assert (Hil : i < length (q_ind T q4)).
    { destruct (bj_pos _ _ (mv_bij _ _ _ _ M4) (S c)) as [j [J1 J2]]; [lia|].
      apply nth_error_Some. congruence. }
    rewrite wr_Ret by auto. cbn [bind]. eexists. split; [reflexivity|].
    apply (R_remove mx q4 c i M); auto.
    + apply M4.
    + rewrite (mv_cur _ _ _ _ M4). auto.
    + rewrite (mv_max _ _ _ _ M4), (mv_max _ _ _ _ M3). cbn. rewrite (mv_max _ _ _ _ M1). apply HR.
    + intro j. rewrite (mv_in _ _ _ _ M4), (mv_in _ _ _ _ M3).
      change (in_q q2 j) with (in_q q1 j). rewrite (mv_in _ _ _ _ M1). apply HR.
    + intros j p Hj. rewrite (mv_prio _ _ _ _ M4), (mv_prio _ _ _ _ M3). cbn.
      rewrite (mv_prio _ _ _ _ M1). apply (r_prio _ _ _ HR); auto.
Qed.

Lemma R_setPriorities : forall mx q M p, R mx q M ->
  R mx (pq_setPriorities T q p) (fun i => match M i with Some _ => Some p | None => None end).
Proof.
  intros mx q M p HR. pose proof (r_bij _ _ _ HR) as [L1 L2 L3 L4 L5 L6 L7].
  assert (Hnth : forall i, i < length (q_prio T q) -> nth i (map (fun _ : T => p) (q_prio T q)) d = p).
  { intros i Hi. rewrite (nth_indep _ d p) by (rewrite map_length; auto).
    exact (map_nth (fun _ : T => p) (q_prio T q) d i). }
  assert (Hrange : forall x y, nth_error (q_ind T q) x = Some (Some y) -> x < length (q_prio T q)).
  { intros x y H. rewrite L3. assert (x < length (q_ind T q)) by (apply nth_error_Some; congruence). lia. }
  constructor.
  - apply HR.
  - constructor; cbn; auto. rewrite map_length. auto.
  - intros x Hx. unfold ok, key. cbn in *. 
    pose proof (div2_lt x ltac:(lia)). pose proof (div2_ge1 x ltac:(lia)).
    destruct (L5 x) as [i [I1 I2]]; [lia|]. destruct (L5 (Nat.div2 x)) as [j [J1 J2]]; [lia|].
    rewrite I1, J1, !Hnth by eauto. apply (swo_irrefl _ _ swo).
  - intro i. change (in_q (pq_setPriorities T q p) i) with (in_q q i). rewrite (r_in _ _ _ HR).
    destruct (M i); split; congruence.
  - intros i p' H. cbn. destruct (M i) eqn:E; [|discriminate]. injection H as <-.
    assert (Hin : in_q q i) by (apply (r_in _ _ _ HR); congruence). destruct Hin as [x Hx].
    rewrite Hnth by eauto. apply (eqv_refl T lt swo).
Qed.

Lemma reset_loop : forall q n, Bij q n -> forall k, k <= S n ->
  exists ind', foldM (fun ind i => h <- rd (q_heap T q) i ;; wri ind h None) (seq 0 k) (q_ind T q) = Ret ind' /\
    length ind' = length (q_ind T q) /\
    (forall i p, nth_error ind' i = Some (Some p) -> nth_error (q_ind T q) i = Some (Some p) /\ k <= p).
Proof.
  intros q n HB. pose proof HB as [L1 L2 L3 L4 L5 L6 L7]. induction k as [|k IH]; intro Hk.
  - exists (q_ind T q). split; auto. split; auto. intros i p H. split; auto. lia.
  - destruct IH as [ind1 [E [Hl H1]]]; [lia|].
    rewrite seq_S, foldM_app, E. cbn [bind foldM plus].
    assert (Hh : exists i, nth_error (q_heap T q) k = Some (Some i) /\ i < length (q_ind T q)).
    { destruct k as [|k]; [exists 0; split; auto; lia|].
      destruct (L5 (S k)) as [i [I1 I2]]; [lia|]. exists i. split; auto. apply nth_error_Some. congruence. }
    destruct Hh as [i [Hi Hil]]. rewrite (rd_Ret _ _ _ _ Hi). cbn [bind wri].
    rewrite wr_Ret by lia. cbn [bind]. eexists. split; [reflexivity|]. rewrite length_upd. split; auto.
    intros j p Hj. destruct (Nat.eq_dec i j) as [<-|N].
    + rewrite nth_error_upd_eq in Hj by lia. discriminate.
    + rewrite nth_error_upd_neq in Hj by auto. destruct (H1 _ _ Hj) as [A B]. split; auto.
      apply L6 in A. destruct A as [_ A]. assert (p <> k) by (intros ->; congruence). lia.
Qed.

Lemma R_reset : forall mx q M, R mx q M ->
  exists q', pq_reset T q = Ret q' /\ R mx q' (pm_empty T).
Proof.
  intros mx q M HR. pose proof (r_bij _ _ _ HR) as HB. pose proof HB as [L1 L2 L3 L4 L5 L6 L7].
  destruct (reset_loop q (q_cur T q) HB (S (q_cur T q))) as [ind' [E [Hl H]]]; auto.
  unfold pq_reset. rewrite E. cbn [bind]. eexists. split; [reflexivity|].
  assert (Hnone : forall i p, nth_error ind' i = Some (Some p) -> False).
  { intros i p Hi. apply H in Hi. destruct Hi as [A B]. apply L6 in A. lia. }
  constructor.
  - apply HR.
  - constructor; cbn; auto; try lia. intros i p Hi. exfalso. eauto.
  - intros p Hp. cbn in Hp. lia.
  - intro i. unfold pm_empty. split; [|congruence]. intros [p Hp]. exfalso. cbn in Hp. eauto.
  - intros i p Hp. discriminate.
Qed.

Lemma R_shows : forall mx q M, R mx q M -> pq_shows T lt mx q M.
Proof.
  intros mx q M HR. pose proof (r_bij _ _ _ HR) as HB. pose proof HB as [L1 L2 L3 L4 L5 L6 L7].
  split; [symmetry; apply R_card; auto|]. split.
  - unfold pq_empty. rewrite Nat.eqb_eq. split.
    + intros H i. destruct (M i) eqn:E; auto. exfalso.
      assert (Hin : in_q q i) by (apply (r_in _ _ _ HR); congruence). destruct Hin as [p Hp].
      apply L6 in Hp. lia.
    + intro H. destruct (q_cur T q) as [|c] eqn:E; auto. exfalso.
      destruct (R_top _ _ _ HR) as [i [_ [_ [p [Hp _]]]]]; [lia|]. congruence.
  - split.
    + intros i Hi. rewrite <- (r_max _ _ _ HR) in Hi.
      destruct (nth_error_lt _ (q_ind T q) i) as [o Ho]; [lia|].
      unfold pq_contains. rewrite (rd_Ret _ _ _ _ Ho). cbn [bind]. eexists. split; [reflexivity|].
      rewrite <- (r_in _ _ _ HR). unfold in_q. rewrite Ho. destruct o as [p|].
      * split; eauto.
      * split; [discriminate|]. intros [p Hp]. discriminate.
    + split.
      * intros i Hi. destruct (M i) eqn:E; auto. exfalso.
        assert (Hin : in_q q i) by (apply (r_in _ _ _ HR); congruence).
        pose proof (in_q_range _ _ _ HB Hin). rewrite (r_max _ _ _ HR) in H. lia.
      * split.
        -- intros i p Hi. exists (nth i (q_prio T q) d). split; [|apply (r_prio _ _ _ HR); auto].
           apply rd_nth. assert (Hin : in_q q i) by (apply (r_in _ _ _ HR); congruence).
           pose proof (in_q_range _ _ _ HB Hin). lia.
        -- unfold pq_empty. rewrite Nat.eqb_neq. intro Hne.
           destruct (R_top _ _ _ HR) as [i [H1 [H2 Hmin]]]; [lia|].
           exists i, (key q 1). split; [apply rd_Ret; auto|]. split; auto.
           split; [apply (key_spec q (q_cur T q)); auto; lia|].
           destruct Hmin as [p [Hp _]]. exists p. split; auto.
           rewrite (key_item _ _ _ _ HB H2). apply (r_prio _ _ _ HR); auto.
Qed.

Lemma R_cur_pos : forall mx q M, R mx q M -> (exists i, M i <> None) -> 0 < q_cur T q.
Proof.
  intros mx q M HR [i Hi]. apply (r_in _ _ _ HR) in Hi. destruct Hi as [p Hp].
  apply (bj_ind _ _ (r_bij _ _ _ HR)) in Hp. lia.
Qed.

Lemma run_R : forall mx ops q M, R mx q M -> pq_legal T lt mx M ops ->
  exists q' M', foldM (pq_step T lt) ops q = Ret q' /\ pm_run T lt M ops M' /\ R mx q' M'.
Proof.
  intros mx. induction ops as [|o ops IH]; intros q M HR HL.
  - exists q, M. split; auto. split; auto. constructor.
  - cbn [foldM]. destruct o as [i p| |i p|i|p|]; cbn [pq_legal] in HL; cbn [pq_step].
    + destruct HL as [H1 [H2 H3]]. destruct (R_push _ _ _ i p HR H1 H2) as [q1 [E HR1]].
      rewrite E. cbn [bind]. destruct (IH _ _ HR1 H3) as [q' [M' [E' [S' R']]]].
      exists q', M'. split; auto. split; auto. econstructor; [constructor|auto].
    + destruct HL as [H1 H2]. destruct (R_pop _ _ _ HR (R_cur_pos _ _ _ HR H1)) as [q1 [i [E [_ [Hmin HR1]]]]].
      rewrite E. cbn [bind]. destruct (IH _ _ HR1 (H2 i Hmin)) as [q' [M' [E' [S' R']]]].
      exists q', M'. split; auto. split; auto. econstructor; [constructor; eauto|auto].
    + destruct HL as [H1 H2]. destruct (R_change _ _ _ i p HR H1) as [q1 [E HR1]].
      rewrite E. cbn [bind]. destruct (IH _ _ HR1 H2) as [q' [M' [E' [S' R']]]].
      exists q', M'. split; auto. split; auto. econstructor; [constructor|auto].
    + destruct HL as [H1 H2]. destruct (R_delete _ _ _ i HR H1) as [q1 [E HR1]].
      rewrite E. cbn [bind]. destruct (IH _ _ HR1 H2) as [q' [M' [E' [S' R']]]].
      exists q', M'. split; auto. split; auto. econstructor; [constructor|auto].
    + cbn [bind]. destruct (IH _ _ (R_setPriorities _ _ _ p HR) HL) as [q' [M' [E' [S' R']]]].
      exists q', M'. split; auto. split; auto. econstructor; [constructor|auto].
    + destruct (R_reset _ _ _ HR) as [q1 [E HR1]].
      rewrite E. cbn [bind]. destruct (IH _ _ HR1 HL) as [q' [M' [E' [S' R']]]].
      exists q', M'. split; auto. split; auto. econstructor; [constructor|auto].
Qed.

Lemma C05_main : forall mx ops, pq_legal T lt mx (pm_empty T) ops ->
  exists q M, pq_run T d lt mx ops = Ret q /\ pm_run T lt (pm_empty T) ops M /\ pq_shows T lt mx q M /\
    (pq_empty T q = false -> exists q' i, pq_top T q = Ret (Some i) /\ pq_pop T lt q = Ret q' /\
       pq_shows T lt mx q' (pm_set T M i None)).
Proof.
  intros mx ops HL. destruct (run_R mx ops _ _ (R_init mx) HL) as [q [M [E [S HR]]]].
  exists q, M. split; auto. split; auto. split; [apply R_shows; auto|].
  intro Hne. unfold pq_empty in Hne. apply Nat.eqb_neq in Hne.
  destruct (R_pop _ _ _ HR) as [q' [i [E1 [E2 [_ HR']]]]]; [lia|].
  exists q', i. split; auto. split; auto. apply R_shows; auto.
Qed.

End PQProofs.

Section FifoProofs.
Variable T : Type.
Variable d : T.

Definition FInv (mx : nat) (q : fifo T) (pushed : nat) (l : list T) : Prop :=
  f_end T q = pushed /\ f_begin T q + length l = pushed /\ length (f_data T q) = mx /\
  f_maxSize T q = mx /\ pushed <= mx /\
  forall i x, nth_error l i = Some x -> nth_error (f_data T q) (f_begin T q + i) = Some x.

Lemma FInv_run : forall mx ops q pushed l, FInv mx q pushed l -> fifo_legal_total T mx pushed l ops ->
  exists q' pushed', foldM (fifo_step T) ops q = Ret q' /\
    FInv mx q' pushed' (fold_left (fifo_spec_step T) ops l).
Proof.
  intros mx. induction ops as [|o ops IH]; intros q pushed l HI HL.
  - exists q, pushed. auto.
  - destruct HI as [I1 [I2 [I3 [I4 [I5 I6]]]]]. cbn [foldM fold_left].
    destruct o as [t| |]; cbn [fifo_legal_total] in HL; cbn [fifo_step fifo_spec_step].
    + destruct HL as [H1 H2]. unfold fifo_push. rewrite wr_Ret by lia. cbn [bind].
      apply (IH _ (S pushed)); auto. unfold FInv; cbn. rewrite app_length, length_upd. simpl.
      repeat split; try lia. intros i x Hx.
      destruct (Nat.lt_ge_cases i (length l)) as [C|C].
      * rewrite nth_error_app1 in Hx by auto. rewrite nth_error_upd_neq by lia. auto.
      * rewrite nth_error_app2 in Hx by auto.
        destruct (i - length l) as [|r] eqn:Er; [|destruct r; discriminate].
        injection Hx as <-. replace (f_begin T q + i) with (f_end T q) by lia.
        apply nth_error_upd_eq. lia.
    + destruct HL as [H1 H2]. cbn [bind]. apply (IH _ pushed); auto.
      destruct l as [|a l]; [congruence|]. unfold FInv; cbn in *.
      repeat split; try lia. intros i x Hx. specialize (I6 (S i) x Hx).
      rewrite <- I6. f_equal. lia.
    + cbn [bind]. apply (IH _ 0); auto. unfold FInv; cbn. repeat split; try lia.
      intros [|i] x Hx; discriminate.
Qed.

Lemma C06_main : forall mx ops, fifo_legal_total T mx 0 [] ops ->
  exists q, fifo_run T d mx ops = Ret q /\ fifo_shows T q (fifo_spec T ops).
Proof.
  intros mx ops HL.
  destruct (FInv_run mx ops (fifo_init T d mx) 0 []) as [q [pushed [E [I1 [I2 [I3 [I4 [I5 I6]]]]]]]]; auto.
  { unfold FInv; cbn. rewrite repeat_length. repeat split; auto; try lia. intros [|i] x Hx; discriminate. }
  exists q. split; auto. fold (fifo_spec T ops) in *. set (l := fifo_spec T ops) in *.
  unfold fifo_shows, fifo_size, fifo_empty, fifo_front. split; [|split].
  - destruct (Nat.leb_spec (f_begin T q) (f_end T q)); lia.
  - rewrite Nat.eqb_eq. split.
    + intro H. destruct l; auto. simpl in I2. lia.
    + intros ->. simpl in I2. lia.
  - intros a r ->. apply rd_Ret. rewrite <- (I6 0 a eq_refl). f_equal. lia.
Qed.
End FifoProofs.
