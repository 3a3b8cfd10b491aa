(** Proofs about the Partition model. *)
From Coq Require Import Relations Sorted.
From Verif Require Import Base PartitionModel UnionFind.

Record PInv (p : partition) (n : nat) (pairs : list (nat * nat)) : Prop := {
  pi_n : numberOfElements p = n;
  pi_len : length (parents p) = n;
  pi_forest : Forest (parents p) (ranks p);
  pi_agrees : Agrees (parents p) pairs;
  pi_sets : numberOfSets p = length (roots (parents p));
  pi_pairs : forall a b, In (a, b) pairs -> a < n /\ b < n }.

Lemma nth_error_seq : forall n s i, i < n -> nth_error (seq s n) i = Some (s + i).
Proof.
  induction n as [|n IH]; intros s [|i] H; simpl; try lia.
  - f_equal. lia.
  - rewrite IH by lia. f_equal. lia.
Qed.

Lemma nth_repeat0 : forall n i, nth i (repeat 0 n) 0 = 0.
Proof. induction n as [|n IH]; intros [|i]; simpl; auto. Qed.

Lemma seq_Root : forall n x r, Root (seq 0 n) x r <-> x = r /\ x < n.
Proof.
  intros n x r. split.
  - intros [l P]. destruct P as [x H|x y l r H N P].
    + split; auto. apply nth_error_Some in H || idtac.
      assert (x < length (seq 0 n)) by (apply nth_error_Some; congruence).
      rewrite seq_length in H0. auto.
    + assert (x < length (seq 0 n)) by (apply nth_error_Some; congruence).
      rewrite seq_length in H0. rewrite nth_error_seq in H by auto. simpl in H. congruence.
  - intros [<- H]. apply Root_of_root. rewrite nth_error_seq; auto.
Qed.

Lemma PInv_init : forall n, PInv (part_init n) n [].
Proof.
  intro n. constructor; simpl; auto.
  - apply seq_length.
  - split; rewrite ?seq_length, ?repeat_length; auto.
    intros x y H. assert (Hx : x < length (seq 0 n)) by (apply nth_error_Some; congruence).
    rewrite seq_length in Hx. rewrite nth_error_seq in H by auto. simpl in H.
    split; intros; [congruence|]. congruence.
  - intros x y r s Hx Hy. apply seq_Root in Hx. apply seq_Root in Hy.
    destruct Hx as [-> _], Hy as [-> _]. split.
    + intros ->. apply connected_refl.
    + intro C. destruct (connected_bound [] 0) with (x := r) (y := s) as [|[? ?]]; auto; try lia.
      intros a b [].
  - symmetry. rewrite <- (seq_length n 0) at 2. apply NoDup_same_length.
    + apply roots_NoDup.
    + apply seq_NoDup.
    + intro x. rewrite roots_In, in_seq. split.
      * intro H. assert (x < length (seq 0 n)) by (apply nth_error_Some; congruence).
        rewrite seq_length in H0. lia.
      * intros [_ H]. rewrite nth_error_seq; auto.
  - intros a b [].
Qed.

Lemma PInv_find_const : forall p n pairs a, PInv p n pairs -> a < n ->
  exists r, part_find_const p a = Ret r /\ Root (parents p) a r.
Proof.
  intros p n pairs a HI Ha.
  destruct (Root_exists _ _ (pi_forest _ _ _ HI) a) as [r Hr].
  { rewrite (pi_len _ _ _ HI). auto. }
  exists r. split; auto. unfold part_find_const.
  eapply find_root_Root; eauto. apply (pi_forest _ _ _ HI).
Qed.

Lemma PInv_find : forall p n pairs a, PInv p n pairs -> a < n ->
  exists p' r, part_find p a = Ret (p', r) /\ PInv p' n pairs /\ Root (parents p) a r /\
    ranks p' = ranks p /\
    (forall z s, Root (parents p') z s <-> Root (parents p) z s).
Proof.
  intros p n pairs a HI Ha.
  pose proof (pi_forest _ _ _ HI) as HF.
  destruct (Path_exists _ _ HF a) as [l [r P]].
  { rewrite (pi_len _ _ _ HI). auto. }
  assert (HR : Root (parents p) a r) by (exists l; auto).
  pose proof (Path_length _ _ HF _ _ _ P) as HL.
  destruct (compress_spec _ _ _ _ P (ranks p) (part_fuel (parents p)) HF) as [ps' [E [EL [EF [ER ES]]]]].
  { unfold part_fuel. lia. }
  unfold part_find. erewrite find_root_Root by eauto. cbn [bind]. rewrite E. cbn [bind].
  eexists. exists r. split; [reflexivity|]. split; [|split; [auto|split; [reflexivity|auto]]].
  constructor; simpl.
  - apply HI.
  - rewrite EL. apply HI.
  - auto.
  - intros x y tx ty Hx Hy. apply ER in Hx. apply ER in Hy.
    apply (pi_agrees _ _ _ HI); auto.
  - rewrite (pi_sets _ _ _ HI). f_equal. symmetry. apply roots_ext; auto.
  - apply HI.
Qed.

Lemma PInv_merge : forall p n pairs a b, PInv p n pairs -> a < n -> b < n ->
  exists p', part_merge p a b = Ret p' /\ PInv p' n ((a, b) :: pairs).
Proof.
  intros p n pairs a b HI Ha Hb.
  destruct (PInv_find _ _ _ a HI Ha) as [p1 [ra [E1 [HI1 [HR1 [Ek1 Eq1]]]]]].
  destruct (PInv_find _ _ _ b HI1 Hb) as [p2 [rb [E2 [HI2 [HR2 [Ek2 Eq2]]]]]].
  unfold part_merge. rewrite E1. cbn [bind]. rewrite E2. cbn [bind].
  assert (Ra : Root (parents p2) a ra) by (apply Eq2, Eq1; auto).
  assert (Rb : Root (parents p2) b rb) by (apply Eq2; auto).
  pose proof (Root_lt _ _ _ Ra) as [_ La]. pose proof (Root_lt _ _ _ Rb) as [_ Lb].
  pose proof (pi_forest _ _ _ HI2) as HF. destruct HF as [HL HF'] eqn:EF. clear EF.
  pose proof (pi_forest _ _ _ HI2) as HF2.
  pose proof (Root_self _ _ _ Ra) as Sa. pose proof (Root_self _ _ _ Rb) as Sb.
  rewrite (rd_nth _ (ranks p2) ra 0) by lia. cbn [bind].
  rewrite (rd_nth _ (ranks p2) rb 0) by lia. cbn [bind].
  assert (Hpairs : forall x y, In (x, y) ((a, b) :: pairs) -> x < n /\ y < n).
  { intros x y [E|H]; [injection E as <- <-; auto|]. eapply (pi_pairs _ _ _ HI); eauto. }
  pose proof (pi_agrees _ _ _ HI2) as HA.
  destruct (Nat.ltb_spec (nth ra (ranks p2) 0) (nth rb (ranks p2) 0)) as [Hlt|Hge].
  - assert (Hne : ra <> rb) by (intros ->; lia).
    rewrite wr_Ret by auto. cbn [bind]. eexists. split; [reflexivity|].
    constructor; cbn [parents ranks numberOfElements numberOfSets]; auto.
    + apply HI2.
    + rewrite length_upd. apply HI2.
    + apply (link_Forest _ (ranks p2)); auto.
    + destruct (link_Agrees _ _ _ _ _ _ _ HF2 HA Ra Rb Hne); assumption.
    + rewrite (pi_sets _ _ _ HI2). erewrite (roots_link (parents p2) ra rb) by eauto. reflexivity.
  - destruct (Nat.ltb_spec (nth rb (ranks p2) 0) (nth ra (ranks p2) 0)) as [Hlt|Hge2].
    + assert (Hne : ra <> rb) by (intros ->; lia).
      rewrite wr_Ret by auto. cbn [bind]. eexists. split; [reflexivity|].
      constructor; cbn [parents ranks numberOfElements numberOfSets]; auto.
      * apply HI2.
      * rewrite length_upd. apply HI2.
      * apply (link_Forest _ (ranks p2)); auto.
      * destruct (link_Agrees _ _ _ _ _ _ _ HF2 HA Ra Rb Hne); assumption.
      * rewrite (pi_sets _ _ _ HI2). erewrite (roots_link (parents p2) rb ra) by eauto. reflexivity.
    + destruct (Nat.eqb_spec ra rb) as [Heq|Hne]; cbn [negb].
      * eexists. split; [reflexivity|].
        destruct HI2 as [I1 I2 I3 I4 I5 I6].
        constructor; auto. eapply same_Agrees; eauto. congruence.
      * rewrite wr_Ret by auto. cbn [bind].
        rewrite wr_Ret by lia. cbn [bind]. eexists. split; [reflexivity|].
        constructor; cbn [parents ranks numberOfElements numberOfSets]; auto.
        -- apply HI2.
        -- rewrite length_upd. apply HI2.
        -- apply (link_Forest _ (ranks p2)); auto.
           ++ apply length_upd.
           ++ intros x Hx. rewrite nth_upd_neq; auto.
           ++ rewrite nth_upd_eq by lia. lia.
           ++ rewrite nth_upd_eq by lia. lia.
        -- destruct (link_Agrees _ _ _ _ _ _ _ HF2 HA Ra Rb Hne); assumption.
        -- rewrite (pi_sets _ _ _ HI2). erewrite (roots_link (parents p2) rb ra) by eauto. reflexivity.
Qed.

(** insert *)
Lemma insert_loop : forall k n l, length l = n ->
  foldM (fun ps j => wr ps j j) (seq n k) (l ++ repeat 0 k) = Ret (l ++ seq n k).
Proof.
  induction k as [|k IH]; intros n l Hl; simpl.
  - reflexivity.
  - rewrite wr_Ret by (rewrite app_length; simpl; lia). cbn [bind].
    replace (upd (l ++ 0 :: repeat 0 k) n n) with ((l ++ [n]) ++ repeat 0 k).
    + rewrite IH by (rewrite app_length; simpl; lia). rewrite <- app_assoc. reflexivity.
    + rewrite <- app_assoc. simpl. clear IH. subst n.
      induction l as [|h t IH]; simpl; auto.
      * f_equal. assert (G : forall m t0, upd (t ++ 0 :: t0) (length t) m = t ++ m :: t0).
        { intros m. clear. induction t as [|a t IH]; intros t0; simpl; auto. f_equal. auto. }
        rewrite G. reflexivity.
Qed.

Lemma app_seq_Root : forall ps k, (forall x y, nth_error ps x = Some y -> y < length ps) ->
  forall x r, Root (ps ++ seq (length ps) k) x r <->
    (Root ps x r \/ (x = r /\ length ps <= x < length ps + k)).
Proof.
  intros ps k HB x r.
  assert (Hnew : forall z, length ps <= z < length ps + k ->
            nth_error (ps ++ seq (length ps) k) z = Some z).
  { intros z Hz. rewrite nth_error_app2 by lia. rewrite nth_error_seq by lia. f_equal. lia. }
  assert (Fwd : forall z l s, Path ps z l s -> Path (ps ++ seq (length ps) k) z l s).
  { induction 1 as [z H|z y l s H N P IH].
    - constructor. rewrite nth_error_app1; auto. apply nth_error_Some. congruence.
    - econstructor; eauto. rewrite nth_error_app1; auto. apply nth_error_Some. congruence. }
  assert (Bwd : forall z l s, Path (ps ++ seq (length ps) k) z l s -> z < length ps -> Path ps z l s).
  { induction 1 as [z H|z y l s H N P IH]; intro Hz.
    - constructor. rewrite nth_error_app1 in H; auto.
    - rewrite nth_error_app1 in H by auto. econstructor; eauto. }
  split.
  - intros [l P]. destruct (Nat.lt_ge_cases x (length ps)) as [Hx|Hx].
    + left. exists l. auto.
    + right. pose proof (Path_lt _ _ _ _ P) as Hlt. rewrite app_length, seq_length in Hlt.
      assert (x = r) by (eapply Root_root_eq; [exists l; eauto|apply Hnew; lia]). lia.
  - intros [[l P]|[<- H]].
    + exists l. auto.
    + apply Root_of_root. apply Hnew. auto.
Qed.

Lemma PInv_insert : forall p n pairs k, PInv p n pairs ->
  exists p', part_insert p k = Ret p' /\ PInv p' (n + k) pairs.
Proof.
  intros p n pairs k HI. unfold part_insert.
  pose proof (pi_len _ _ _ HI) as HL. pose proof (pi_n _ _ _ HI) as HN.
  destruct (pi_forest _ _ _ HI) as [HLR HF].
  rewrite HN, insert_loop by auto. cbn [bind]. eexists. split; [reflexivity|].
  assert (HB : forall x y, nth_error (parents p) x = Some y -> y < length (parents p)).
  { intros x y H. apply HF in H. tauto. }
  rewrite <- HL.
  constructor; cbn [parents ranks numberOfElements numberOfSets].
  - lia.
  - rewrite app_length, seq_length. lia.
  - split; rewrite !app_length, ?seq_length, ?repeat_length; [lia|].
    intros x y H. destruct (Nat.lt_ge_cases x (length (parents p))) as [Hx|Hx].
    + rewrite nth_error_app1 in H by auto. destruct (HF _ _ H) as [H1 H2].
      split; [lia|]. intro Nxy. rewrite !app_nth1 by lia. auto.
    + assert (Hx' : x < length (parents p ++ seq (length (parents p)) k)).
      { apply nth_error_Some. congruence. }
      rewrite app_length, seq_length in Hx'.
      rewrite nth_error_app2 in H by auto. rewrite nth_error_seq in H by lia.
      injection H as H. split; [lia|]. intro. lia.
  - intros x y r s Hx Hy. apply app_seq_Root in Hx; auto. apply app_seq_Root in Hy; auto.
    assert (NB : forall u v, connected pairs u v -> u = v \/ (u < length (parents p) /\ v < length (parents p))).
    { intros u v. apply connected_bound. rewrite HL. apply HI. }
    destruct Hx as [Hx|[-> Hx]], Hy as [Hy|[-> Hy]].
    + apply (pi_agrees _ _ _ HI); auto.
    + pose proof (Root_lt _ _ _ Hx). split; [lia|]. intro C. apply NB in C. lia.
    + pose proof (Root_lt _ _ _ Hy). split; [lia|]. intro C. apply NB in C. lia.
    + split; [intros ->; apply connected_refl|]. intro C. apply NB in C. lia.
  - rewrite (pi_sets _ _ _ HI).
    rewrite <- (seq_length k (length (parents p))) at 1. rewrite <- app_length.
    apply NoDup_same_length.
    + assert (G : forall l1 l2 : list nat, NoDup l1 -> NoDup l2 ->
                  (forall x, In x l1 -> In x l2 -> False) -> NoDup (l1 ++ l2)).
      { intros l1 l2 H1 H2 H3. induction H1 as [|a l1 Ha H1 IH]; simpl; auto.
        constructor.
        - rewrite in_app_iff. intros [H|H]; auto. apply (H3 a); simpl; auto.
        - apply IH. intros x Hx. apply H3. simpl; auto. }
      apply G; [apply roots_NoDup|apply seq_NoDup|].
      intros x Hx Hy. rewrite roots_In in Hx. rewrite in_seq in Hy.
      apply HB in Hx. lia.
    + apply roots_NoDup.
    + intro x. rewrite in_app_iff, !roots_In, in_seq. split.
      * intros [H|H].
        -- rewrite nth_error_app1; auto. apply nth_error_Some. congruence.
        -- rewrite nth_error_app2 by lia. rewrite nth_error_seq by lia. f_equal. lia.
      * intro H. destruct (Nat.lt_ge_cases x (length (parents p))) as [Hx|Hx].
        -- left. rewrite nth_error_app1 in H; auto.
        -- right. assert (Hx' : x < length (parents p ++ seq (length (parents p)) k)).
           { apply nth_error_Some. congruence. }
           rewrite app_length, seq_length in Hx'. lia.
  - intros a b H. apply (pi_pairs _ _ _ HI) in H. lia.
Qed.

(** * Histories *)

Definition spec_size_pairs_step (s : nat * list (nat * nat)) (o : part_op) : nat * list (nat * nat) :=
  match o with
  | PReset n => (n, [])
  | PInsert k => (fst s + k, snd s)
  | PMerge a b => (fst s, (a, b) :: snd s)
  | PFind _ => s
  end.

Fixpoint part_valid (n : nat) (ops : list part_op) : Prop :=
  match ops with
  | [] => True
  | PReset m :: t => part_valid m t
  | PInsert k :: t => part_valid (n + k) t
  | PMerge a b :: t => a < n /\ b < n /\ part_valid n t
  | PFind a :: t => a < n /\ part_valid n t
  end.

Lemma part_run_inv : forall ops p n pairs, PInv p n pairs -> part_valid n ops ->
  exists p', foldM part_step ops p = Ret p' /\
    PInv p' (fst (fold_left spec_size_pairs_step ops (n, pairs)))
            (snd (fold_left spec_size_pairs_step ops (n, pairs))).
Proof.
  induction ops as [|o ops IH]; intros p n pairs HI HV.
  - simpl. eauto.
  - cbn [foldM fold_left]. destruct o as [m|k|a b|a]; cbn [part_step spec_size_pairs_step fst snd];
      cbn [part_valid] in HV.
    + cbn [bind]. apply IH; auto. apply PInv_init.
    + destruct (PInv_insert _ _ _ k HI) as [p' [E HI']]. rewrite E. cbn [bind]. apply IH; auto.
    + destruct HV as [Ha [Hb HV]].
      destruct (PInv_merge _ _ _ a b HI Ha Hb) as [p' [E HI']]. rewrite E. cbn [bind]. apply IH; auto.
    + destruct HV as [Ha HV].
      destruct (PInv_find _ _ _ a HI Ha) as [p' [r [E [HI' _]]]]. rewrite E. cbn [bind]. apply IH; auto.
Qed.

(** * Queries *)

Lemma filter_foldM : forall (f : nat -> bool) (g : nat -> outcome nat) l out,
  (forall j, In j l -> exists q, g j = Ret q /\ Nat.eqb q j = f j) ->
  foldM (fun out j => q <- g j ;; Ret (if Nat.eqb q j then out ++ [j] else out)) l out
  = Ret (out ++ filter f l).
Proof.
  intros f g. induction l as [|a l IH]; intros out H; simpl.
  - rewrite app_nil_r. reflexivity.
  - destruct (H a) as [q [E Ef]]; [left; auto|]. rewrite E. cbn [bind]. rewrite Ef.
    destruct (f a).
    + rewrite IH by (intros; apply H; right; auto). rewrite <- app_assoc. reflexivity.
    + apply IH. intros; apply H; right; auto.
Qed.

Lemma part_representatives_eq : forall p n pairs, PInv p n pairs ->
  part_representatives p = Ret (roots (parents p)).
Proof.
  intros p n pairs HI. unfold part_representatives, roots.
  rewrite (pi_n _ _ _ HI), (pi_len _ _ _ HI).
  rewrite filter_foldM with (f := is_root (parents p)); [reflexivity|].
  intros j Hj. apply in_seq in Hj.
  destruct (nth_error_lt _ (parents p) j) as [q Hq]; [rewrite (pi_len _ _ _ HI); lia|].
  exists q. split; [apply rd_Ret; auto|]. unfold is_root. rewrite Hq. reflexivity.
Qed.

(** Looking up the label of a representative. *)
Lemma map_at_put_eq : forall m k v, map_at (map_put m k v) k = v.
Proof.
  induction m as [|[k' v'] m IH]; intros k v; simpl.
  - rewrite Nat.eqb_refl. reflexivity.
  - destruct (Nat.eqb_spec k k'); simpl.
    + rewrite Nat.eqb_refl. reflexivity.
    + destruct (Nat.eqb_spec k k'); [congruence|]. auto.
Qed.

Lemma map_at_put_neq : forall m k k2 v, k <> k2 -> map_at (map_put m k v) k2 = map_at m k2.
Proof.
  induction m as [|[k' v'] m IH]; intros k k2 v N; simpl.
  - destruct (Nat.eqb_spec k2 k); [congruence|reflexivity].
  - destruct (Nat.eqb_spec k k'); simpl.
    + subst. destruct (Nat.eqb_spec k2 k'); [congruence|reflexivity].
    + destruct (Nat.eqb_spec k2 k'); auto.
Qed.

Lemma map_put_keys : forall m k v x, In x (map fst (map_put m k v)) <-> x = k \/ In x (map fst m).
Proof.
  induction m as [|[k' v'] m IH]; intros k v x; simpl.
  - intuition.
  - destruct (Nat.eqb_spec k k'); simpl.
    + subst. intuition.
    + rewrite IH. intuition.
Qed.

Lemma labeling_loop : forall r, NoDup r -> forall k, k <= length r ->
  exists m, foldM (fun out j => x <- rd r j ;; Ret (map_put out x j)) (seq 0 k) [] = Ret m /\
    (forall j x, nth_error r j = Some x -> j < k -> map_at m x = j) /\
    (forall x, In x (map fst m) <-> exists j, j < k /\ nth_error r j = Some x).
Proof.
  intros r Hnd. induction k as [|k IH]; intro Hk.
  - simpl. exists []. split; auto. split; [intros; lia|].
    intro x. simpl. split; [tauto|]. intros [j [? _]]. lia.
  - destruct IH as [m [E [Hm Hkeys]]]; [lia|].
    rewrite seq_S, foldM_app, E. cbn [bind foldM plus].
    destruct (nth_error_lt _ r k) as [x Hx]; [lia|]. rewrite (rd_Ret _ _ _ _ Hx). cbn [bind].
    eexists. split; [reflexivity|]. split.
    + intros j y Hy Hj. destruct (Nat.eq_dec j k) as [->|N].
      * assert (y = x) by congruence. subst. apply map_at_put_eq.
      * rewrite map_at_put_neq; [apply Hm; auto; lia|].
        intros ->. apply N. eapply NoDup_nth_error; eauto; try congruence.
        apply nth_error_Some. congruence.
    + intro y. rewrite map_put_keys, Hkeys. split.
      * intros [->|[j [Hj Hy]]]; [exists k; split; [lia|auto]|exists j; split; [lia|auto]].
      * intros [j [Hj Hy]]. destruct (Nat.eq_dec j k) as [->|N].
        -- left. congruence.
        -- right. exists j. split; [lia|auto].
Qed.

Lemma part_representativeLabeling_spec : forall p n pairs, PInv p n pairs ->
  exists m, part_representativeLabeling p = Ret m /\
    (forall j x, nth_error (roots (parents p)) j = Some x -> map_at m x = j) /\
    (forall x, In x (map fst m) <-> In x (roots (parents p))).
Proof.
  intros p n pairs HI. unfold part_representativeLabeling.
  erewrite part_representatives_eq by eauto. cbn [bind].
  rewrite (pi_sets _ _ _ HI), Nat.leb_refl, Nat.sub_diag. simpl repeat. rewrite app_nil_r.
  destruct (labeling_loop (roots (parents p)) (roots_NoDup _) (length (roots (parents p))))
    as [m [E [Hm Hk]]]; auto.
  exists m. split; auto. split.
  - intros j x Hx. apply Hm; auto. apply nth_error_Some. congruence.
  - intro x. rewrite Hk, In_nth_error_iff. split.
    + intros [j [_ H]]. eauto.
    + intros [j H]. exists j. split; auto. apply nth_error_Some. congruence.
Qed.

Lemma part_elementLabeling_spec : forall p n pairs, PInv p n pairs ->
  exists labels, part_elementLabeling p = Ret labels /\ length labels = n /\
    (forall a la, nth_error labels a = Some la -> la < numberOfSets p) /\
    (forall a b la lb, nth_error labels a = Some la -> nth_error labels b = Some lb ->
       (la = lb <-> connected pairs a b)).
Proof.
  intros p n pairs HI.
  destruct (part_representativeLabeling_spec _ _ _ HI) as [m [E [Hm Hk]]].
  unfold part_elementLabeling. rewrite E. cbn [bind].
  pose (g := fun j => match part_find_const p j with Ret r => map_at m r | _ => 0 end).
  rewrite mapM_Ret with (g := g).
  2: { intros a Ha. apply in_seq in Ha.
       destruct (PInv_find_const _ _ _ a HI) as [r [Er _]]; [rewrite <- (pi_n _ _ _ HI); lia|].
       unfold g. rewrite Er. reflexivity. }
  eexists. split; [reflexivity|].
  rewrite (pi_n _ _ _ HI).
  assert (Hget : forall a la, nth_error (map g (seq 0 n)) a = Some la ->
     exists r j, Root (parents p) a r /\ nth_error (roots (parents p)) j = Some r /\ la = j).
  { intros a la Ha.
    assert (Hlt : a < n).
    { assert (a < length (map g (seq 0 n))) by (apply nth_error_Some; congruence).
      rewrite map_length, seq_length in H. auto. }
    rewrite nth_error_map, nth_error_seq in Ha by auto. simpl in Ha.
    destruct (PInv_find_const _ _ _ a HI Hlt) as [r [Er Hr]].
    unfold g in Ha. rewrite Er in Ha. injection Ha as Ha.
    assert (Hin : In r (roots (parents p))) by (apply roots_In; eapply Root_self; eauto).
    apply In_nth_error in Hin. destruct Hin as [j Hj].
    exists r, j. split; auto. split; auto. rewrite <- Ha. apply Hm. auto. }
  split; [rewrite map_length, seq_length; auto|]. split.
  - intros a la Ha. destruct (Hget _ _ Ha) as [r [j [_ [Hj ->]]]].
    rewrite (pi_sets _ _ _ HI). apply nth_error_Some. congruence.
  - intros a b la lb Ha Hb.
    destruct (Hget _ _ Ha) as [ra [ja [Ra [Ja ->]]]].
    destruct (Hget _ _ Hb) as [rb [jb [Rb [Jb ->]]]].
    rewrite <- (pi_agrees _ _ _ HI a b ra rb Ra Rb).
    split.
    + intros ->. congruence.
    + intros ->. eapply NoDup_nth_error; [apply (roots_NoDup (parents p))| |congruence].
      apply nth_error_Some. congruence.
Qed.

(** * Queries never influence later results *)

Definition Sim (p q : partition) : Prop :=
  ranks p = ranks q /\ numberOfElements p = numberOfElements q /\
  numberOfSets p = numberOfSets q /\
  forall z s, Root (parents p) z s <-> Root (parents q) z s.

Lemma Sim_refl : forall p, Sim p p.
Proof. intro p. repeat split; auto. Qed.

Lemma Sim_find_l : forall p q n pairs a p' r, PInv p n pairs -> a < n -> Sim p q ->
  part_find p a = Ret (p', r) -> Sim p' q.
Proof.
  intros p q n pairs a p' r HI Ha [S1 [S2 [S3 S4]]] E.
  destruct (PInv_find _ _ _ a HI Ha) as [p1 [r1 [E1 [HI1 [_ [Ek Eq]]]]]].
  rewrite E in E1. injection E1 as <- <-.
  split; [congruence|]. split.
  - rewrite (pi_n _ _ _ HI1). rewrite <- S2. symmetry. apply HI.
  - split.
    + rewrite <- S3. rewrite (pi_sets _ _ _ HI), (pi_sets _ _ _ HI1).
      apply NoDup_same_length; try apply roots_NoDup. intro x. rewrite !roots_In.
      split; intro H; apply Root_of_root in H; apply Eq in H; eapply Root_self; eauto.
    + intros z s. rewrite Eq. apply S4.
Qed.

Lemma Sim_sym : forall p q, Sim p q -> Sim q p.
Proof.
  intros p q [S1 [S2 [S3 S4]]]. repeat split; auto; try apply S4.
Qed.

Lemma Sim_merge : forall p q n pairs qairs a b p' q', PInv p n pairs -> PInv q n qairs ->
  a < n -> b < n -> Sim p q ->
  part_merge p a b = Ret p' -> part_merge q a b = Ret q' -> Sim p' q'.
Proof.
  intros p q n pairs qairs a b p' q' HP HQ Ha Hb HS Ep Eq.
  destruct (PInv_find _ _ _ a HP Ha) as [p1 [ra [E1 [HP1 [RA [KP1 QP1]]]]]].
  destruct (PInv_find _ _ _ b HP1 Hb) as [p2 [rb [E2 [HP2 [RB [KP2 QP2]]]]]].
  destruct (PInv_find _ _ _ a HQ Ha) as [q1 [ra' [F1 [HQ1 [RA' [KQ1 QQ1]]]]]].
  destruct (PInv_find _ _ _ b HQ1 Hb) as [q2 [rb' [F2 [HQ2 [RB' [KQ2 QQ2]]]]]].
  assert (HS1 : Sim p1 q1).
  { apply Sim_sym. eapply Sim_find_l; [apply HQ|apply Ha| |apply F1].
    apply Sim_sym. eapply Sim_find_l; [apply HP|apply Ha| |apply E1]. auto. }
  assert (HS2 : Sim p2 q2).
  { apply Sim_sym. eapply Sim_find_l; [apply HQ1|apply Hb| |apply F2].
    apply Sim_sym. eapply Sim_find_l; [apply HP1|apply Hb| |apply E2]. auto. }
  destruct HS as [_ [_ [_ HR]]]. destruct HS1 as [_ [_ [_ HR1]]].
  assert (ra' = ra) by (eapply Root_det; [apply RA'|apply HR; auto]). subst ra'.
  assert (rb' = rb) by (eapply Root_det; [apply RB'|apply HR1; auto]). subst rb'.
  destruct HS2 as [K [N [C R2]]].
  unfold part_merge in Ep, Eq. rewrite E1 in Ep. rewrite F1 in Eq. cbn [bind] in Ep, Eq.
  rewrite E2 in Ep. rewrite F2 in Eq. cbn [bind] in Ep, Eq. rewrite <- K in Eq.
  assert (Ra2 : Root (parents p2) a ra) by (apply QP2, QP1; auto).
  assert (Rb2 : Root (parents p2) b rb) by (apply QP2; auto).
  assert (Ra2' : Root (parents q2) a ra) by (apply QQ2, QQ1; auto).
  assert (Rb2' : Root (parents q2) b rb) by (apply QQ2; auto).
  pose proof (Root_lt _ _ _ Ra2) as [_ La]. pose proof (Root_lt _ _ _ Rb2) as [_ Lb].
  pose proof (Root_lt _ _ _ Ra2') as [_ La']. pose proof (Root_lt _ _ _ Rb2') as [_ Lb'].
  destruct (pi_forest _ _ _ HP2) as [HL _].
  rewrite (rd_nth _ (ranks p2) ra 0) in Ep, Eq by lia. cbn [bind] in Ep, Eq.
  rewrite (rd_nth _ (ranks p2) rb 0) in Ep, Eq by lia. cbn [bind] in Ep, Eq.
  assert (Link : forall x y, x <> y ->
     (x = ra /\ y = rb \/ x = rb /\ y = ra) ->
     forall z s, Root (upd (parents p2) x y) z s <-> Root (upd (parents q2) x y) z s).
  { intros x y Nxy Hxy z s.
    rewrite (link_Root _ _ x y (pi_forest _ _ _ HP2)) by
      (auto; destruct Hxy as [[-> ->]|[-> ->]]; eapply Root_self; eauto).
    rewrite (link_Root _ _ x y (pi_forest _ _ _ HQ2)) by
      (auto; destruct Hxy as [[-> ->]|[-> ->]]; eapply Root_self; eauto).
    split; intros [t [Ht Es]]; exists t; split; auto; apply R2; auto. }
  destruct (Nat.ltb_spec (nth ra (ranks p2) 0) (nth rb (ranks p2) 0)) as [H1|H1].
  { rewrite wr_Ret in Ep, Eq by auto. cbn [bind] in Ep, Eq.
    injection Ep as <-. injection Eq as <-. unfold Sim; cbn.
    split; [auto|]. split; [auto|]. split; [congruence|].
    apply Link; [intros ->; lia|auto]. }
  destruct (Nat.ltb_spec (nth rb (ranks p2) 0) (nth ra (ranks p2) 0)) as [H2|H2].
  { rewrite wr_Ret in Ep, Eq by auto. cbn [bind] in Ep, Eq.
    injection Ep as <-. injection Eq as <-. unfold Sim; cbn.
    split; [auto|]. split; [auto|]. split; [congruence|].
    apply Link; [intros ->; lia|auto]. }
  destruct (Nat.eqb_spec ra rb) as [H3|H3]; cbn [negb] in Ep, Eq.
  { injection Ep as <-. injection Eq as <-. repeat split; auto; apply R2. }
  rewrite wr_Ret in Ep, Eq by auto. cbn [bind] in Ep, Eq.
  rewrite wr_Ret in Ep, Eq by lia. cbn [bind] in Ep, Eq.
  injection Ep as <-. injection Eq as <-. unfold Sim; cbn.
  split; [auto|]. split; [auto|]. split; [congruence|].
  apply Link; auto.
Qed.

Lemma Sim_insert : forall p q n pairs qairs k p' q', PInv p n pairs -> PInv q n qairs ->
  Sim p q -> part_insert p k = Ret p' -> part_insert q k = Ret q' -> Sim p' q'.
Proof.
  intros p q n pairs qairs k p' q' HP HQ [S1 [S2 [S3 S4]]] Ep Eq.
  unfold part_insert in Ep, Eq.
  rewrite (pi_n _ _ _ HP) in Ep. rewrite (pi_n _ _ _ HQ) in Eq.
  rewrite insert_loop in Ep by apply HP. rewrite insert_loop in Eq by apply HQ.
  cbn [bind] in Ep, Eq. injection Ep as <-. injection Eq as <-.
  unfold Sim; cbn. split; [congruence|]. split; [reflexivity|]. split; [congruence|].
  intros z s.
  pose proof (pi_len _ _ _ HP) as LP. pose proof (pi_len _ _ _ HQ) as LQ.
  rewrite <- LP at 1. rewrite <- LQ at 1.
  rewrite !app_seq_Root.
  - rewrite S4, LP, LQ. tauto.
  - intros x y H. apply (pi_forest _ _ _ HQ) in H. tauto.
  - intros x y H. apply (pi_forest _ _ _ HP) in H. tauto.
Qed.

Definition is_query (o : part_op) : bool := match o with PFind _ => true | _ => false end.

Lemma strip_valid : forall ops n, part_valid n ops ->
  part_valid n (filter (fun o => negb (is_query o)) ops).
Proof.
  induction ops as [|o ops IH]; intros n H; simpl; auto.
  destruct o; simpl in *; intuition.
Qed.

Lemma strip_Sim : forall ops p q n pairs qairs p',
  PInv p n pairs -> PInv q n qairs -> Sim p q -> part_valid n ops ->
  foldM part_step ops p = Ret p' ->
  exists q', foldM part_step (filter (fun o => negb (is_query o)) ops) q = Ret q' /\ Sim p' q'.
Proof.
  induction ops as [|o ops IH]; intros p q n pairs qairs p' HP HQ HS HV E; simpl in E.
  - injection E as <-. exists q. auto.
  - destruct o as [m|k|a b|a]; cbn [part_valid] in HV; cbn [part_step bind] in E;
      cbn [filter is_query negb foldM part_step].
    + cbn [bind]. apply (IH (part_init m) (part_init m) m [] [] p'); auto using PInv_init, Sim_refl.
    + destruct (PInv_insert _ _ _ k HP) as [p1 [E1 HP1]].
      destruct (PInv_insert _ _ _ k HQ) as [q1 [E2 HQ1]].
      rewrite E1 in E. cbn [bind] in E. rewrite E2. cbn [bind].
      eapply (IH p1 q1 (n + k)); [apply HP1|apply HQ1|apply (Sim_insert p q n pairs qairs k p1 q1); auto|auto|auto].
    + destruct HV as [Ha [Hb HV]].
      destruct (PInv_merge _ _ _ a b HP Ha Hb) as [p1 [E1 HP1]].
      destruct (PInv_merge _ _ _ a b HQ Ha Hb) as [q1 [E2 HQ1]].
      rewrite E1 in E. cbn [bind] in E. rewrite E2. cbn [bind].
      eapply (IH p1 q1 n); [apply HP1|apply HQ1|apply (Sim_merge p q n pairs qairs a b p1 q1); auto|auto|auto].
    + destruct HV as [Ha HV].
      destruct (PInv_find _ _ _ a HP Ha) as [p1 [r1 [E1 [HP1 _]]]].
      rewrite E1 in E. cbn [bind] in E.
      eapply (IH p1 q n); [apply HP1|apply HQ|apply (Sim_find_l p q n pairs a p1 r1); auto|auto|auto].
Qed.

Lemma run_strip : forall n ops p, part_valid n ops -> part_run n ops = Ret p ->
  exists q, part_run n (filter (fun o => negb (is_query o)) ops) = Ret q /\
    numberOfElements q = numberOfElements p /\ numberOfSets q = numberOfSets p /\
    forall a, a < numberOfElements p ->
      part_find_const q a = part_find_const p a.
Proof.
  intros n ops p HV E.
  destruct (strip_Sim ops (part_init n) (part_init n) n [] [] p) as [q [Eq HS]]; auto using PInv_init, Sim_refl.
  exists q. split; auto. destruct HS as [S1 [S2 [S3 S4]]]. split; auto. split; auto.
  intros a Ha.
  destruct (part_run_inv ops (part_init n) n [] (PInv_init n) HV) as [p1 [E1 HP]].
  unfold part_run in E. rewrite E in E1. injection E1 as <-.
  destruct (part_run_inv _ (part_init n) n [] (PInv_init n) (strip_valid _ _ HV)) as [q1 [E2 HQ]].
  rewrite Eq in E2. injection E2 as <-.
  destruct (PInv_find_const _ _ _ a HP) as [r [F R]]; [rewrite <- (pi_n _ _ _ HP); auto|].
  destruct (PInv_find_const _ _ _ a HQ) as [r' [F' R']].
  { rewrite <- (pi_n _ _ _ HQ). rewrite <- S2. auto. }
  rewrite F, F'. f_equal. eapply Root_det; eauto. apply S4. auto.
Qed.

(** * Packaged statements *)

Lemma C01_main : forall n ops, part_valid n ops ->
  exists p, part_run n ops = Ret p /\
   forall a b, a < numberOfElements p -> b < numberOfElements p ->
     exists pa ra pb rb,
       part_find_const p a = Ret ra /\ part_find p a = Ret (pa, ra) /\
       part_find_const p b = Ret rb /\ part_find p b = Ret (pb, rb) /\
       connected (snd (fold_left spec_size_pairs_step ops (n, []))) a ra /\
       ra < numberOfElements p /\
       (ra = rb <-> connected (snd (fold_left spec_size_pairs_step ops (n, []))) a b).
Proof.
  intros n ops HV.
  destruct (part_run_inv ops (part_init n) n [] (PInv_init n) HV) as [p [E HI]].
  exists p. split; auto. intros a b Ha Hb.
  set (m := fst (fold_left spec_size_pairs_step ops (n, []))) in *.
  set (prs := snd (fold_left spec_size_pairs_step ops (n, []))) in *.
  rewrite (pi_n _ _ _ HI) in Ha, Hb.
  destruct (PInv_find_const _ _ _ a HI Ha) as [ra [Fa Ra]].
  destruct (PInv_find_const _ _ _ b HI Hb) as [rb [Fb Rb]].
  destruct (PInv_find _ _ _ a HI Ha) as [pa [ra' [Ga [_ [Ra' _]]]]].
  destruct (PInv_find _ _ _ b HI Hb) as [pb [rb' [Gb [_ [Rb' _]]]]].
  assert (ra' = ra) by (eapply Root_det; eauto). subst ra'.
  assert (rb' = rb) by (eapply Root_det; eauto). subst rb'.
  exists pa, ra, pb, rb. split; auto. split; auto. split; auto. split; auto. split.
  - eapply (pi_agrees _ _ _ HI a ra ra ra); eauto. apply Root_of_root. eapply Root_self; eauto.
  - split.
    + rewrite (pi_n _ _ _ HI), <- (pi_len _ _ _ HI). apply (Root_lt _ _ _ Ra).
    + apply (pi_agrees _ _ _ HI a b ra rb); auto.
Qed.

Lemma roots_sorted_filter : forall (f : nat -> bool) n s, StronglySorted lt (filter f (seq s n)).
Proof.
  intros f. induction n as [|n IH]; intro s; simpl; [constructor|].
  destruct (f s); [|apply IH]. constructor; [apply IH|].
  apply Forall_forall. intros x Hx. apply filter_In in Hx. destruct Hx as [Hx _].
  apply in_seq in Hx. lia.
Qed.

Lemma C02_main : forall n ops, part_valid n ops ->
  exists p reps rl labels,
    part_run n ops = Ret p /\
    part_representatives p = Ret reps /\
    part_representativeLabeling p = Ret rl /\
    part_elementLabeling p = Ret labels /\
    let m := fst (fold_left spec_size_pairs_step ops (n, [])) in
    let prs := snd (fold_left spec_size_pairs_step ops (n, [])) in
    numberOfElements p = m /\
    numberOfSets p = length reps /\
    StronglySorted lt reps /\
    (forall r, In r reps -> r < m) /\
    (forall a, a < m -> exists! r, In r reps /\ connected prs a r) /\
    (forall j r, nth_error reps j = Some r -> map_at rl r = j) /\
    (forall r, In r (map fst rl) <-> In r reps) /\
    length labels = m /\
    (forall a la, nth_error labels a = Some la -> la < numberOfSets p) /\
    (forall a b la lb, nth_error labels a = Some la -> nth_error labels b = Some lb ->
       (la = lb <-> connected prs a b)).
Proof.
  intros n ops HV.
  destruct (part_run_inv ops (part_init n) n [] (PInv_init n) HV) as [p [E HI]].
  set (m := fst (fold_left spec_size_pairs_step ops (n, []))) in *.
  set (prs := snd (fold_left spec_size_pairs_step ops (n, []))) in *.
  destruct (part_representativeLabeling_spec _ _ _ HI) as [rl [Erl [Hrl Hkeys]]].
  destruct (part_elementLabeling_spec _ _ _ HI) as [labels [El [Hl1 [Hl2 Hl3]]]].
  exists p, (roots (parents p)), rl, labels.
  split; [auto|]. split; [eapply part_representatives_eq; eauto|]. split; [auto|]. split; [auto|].
  cbv zeta. split; [apply HI|]. split; [apply HI|].
  split; [apply roots_sorted_filter|].
  split.
  { intros r Hr. rewrite roots_In in Hr. rewrite <- (pi_len _ _ _ HI). apply nth_error_Some. congruence. }
  split.
  { intros a Ha. rewrite <- (pi_len _ _ _ HI) in Ha.
    destruct (Root_exists _ _ (pi_forest _ _ _ HI) a Ha) as [r Hr].
    pose proof (Root_self _ _ _ Hr) as Hs.
    exists r. split.
    - split; [apply roots_In; auto|].
      apply (pi_agrees _ _ _ HI a r r r); auto. apply Root_of_root; auto.
    - intros r' [Hin C]. apply roots_In in Hin.
      apply (pi_agrees _ _ _ HI a r' r r'); auto. apply Root_of_root; auto. }
  split; [auto|]. split; [auto|]. split; [auto|]. split; auto.
Qed.
