(** Proofs about the generalized Potts function. *)
From Coq Require Import NArith Nnat Sorted.
From Verif Require Import Base PartitionsModel PartitionsSpec PartitionsProofs PottsGModel.

Definition all_equal (l : list nat) : Prop := forall i j, i < length l -> j < length l -> nth i l 0 = nth j l 0.

Lemma pg_indexer_code : forall n l, n <= 4 -> pg_indexer n l = code n l.
Proof.
  intros n l Hn. destruct n as [|[|[|[|[|n]]]]]; try lia;
  unfold pg_indexer, code, bits, pairs; cbn -[N.add N.mul nth];
  repeat match goal with |- context [Nat.eqb ?a ?b] => destruct (Nat.eqb a b) end; reflexivity.
Qed.

(** The position of the value used for a labeling, as a function of the history. *)
Definition pg_pos (t : list N) (n : nat) (l : list nat) : outcome (list N * option nat) :=
  if Nat.leb n 4 then Ret (t, pg_switch (pg_indexer n l)) else label2Index t (firstn n l).

Lemma in_small : forall A (P : A -> Prop) l, Forall P l -> forall x, In x l -> P x.
Proof. intros A P l H x Hx. rewrite Forall_forall in H. auto. Qed.

Lemma small_switch : forall n, n <= 4 -> forall l, length l = n ->
  exists k, pg_switch (code n l) = Some k /\ (N.of_nat k < cnt n 0)%N /\
    nth_error (std_sort (map (code n) (enum n))) k = Some (code n l).
Proof.
  intros n Hn l L.
  assert (Hin : In (code n l) (map (code n) (enum n))) by (apply Codes_enum; exists l; auto).
  revert Hin. generalize (code n l) as c. intros c.
  assert (F : Forall (fun c => exists k, pg_switch c = Some k /\ (N.of_nat k < cnt n 0)%N /\
     nth_error (std_sort (map (code n) (enum n))) k = Some c) (map (code n) (enum n))).
  { clear l L c. destruct n as [|[|[|[|[|n]]]]]; try lia; 
    repeat (match goal with |- Forall _ ?l => let l' := eval vm_compute in l in change l with l' end; 
            idtac); 
    repeat (constructor; [eexists; split; [vm_compute; reflexivity|split; vm_compute; reflexivity]|]);
    constructor. }
  intro H. exact (in_small _ _ _ F c H).
Qed.

(** Uniform description of the index. *)
Lemma pg_index : forall n, n <= 11 -> exists idx : list nat -> nat,
  (forall t l, parts_reachable t -> length l = n -> exists t', pg_pos t n l = Ret (t', Some (idx l)) /\ parts_reachable t') /\
  (forall l, length l = n -> (N.of_nat (idx l) < cnt n 0)%N) /\
  (forall k, (N.of_nat k < cnt n 0)%N -> exists l, length l = n /\ idx l = k) /\
  (forall l l', length l = n -> length l' = n -> (idx l = idx l' <-> same_partition l l')) /\
  (forall l l', length l = n -> length l' = n -> all_equal l -> idx l' <= idx l).
Proof.
  intros n Hn.
  destruct (build_new n [] Hn) as [T [ET HT]]; [pose proof (cnt_pos n 0); cbn; lia|].
  assert (HC : Covers n T) by (exists n; auto).
  pose proof (tri_11 n Hn) as Htri.
  assert (HinT : forall l, length l = n -> In (code n l) T) by (intros l L; apply (tab_codes _ _ HT); exists l; auto).
  exists (fun l => rank (code n l) T). split; [|split; [|split; [|split]]].
  - intros t l Hr L. unfold pg_pos. destruct (Nat.leb_spec n 4) as [C|C].
    + exists t. split; auto. rewrite pg_indexer_code by auto.
      destruct (small_switch n C l L) as [k [E1 [_ E2]]]. rewrite E1. f_equal. f_equal. f_equal.
      (* the table built from scratch is the sorted list of codes *)
      assert (ETT : T = std_sort (map (code n) (enum n))).
      { unfold buildPartitions in ET. rewrite (rd_Ret _ _ _ _ (cnt_Bell n ltac:(lia))) in ET. cbn [bind] in ET.
        replace (N.leb (cnt n 0) (N.of_nat (@length N []))) with false in ET
          by (symmetry; apply N.leb_gt; pose proof (cnt_pos n 0); cbn; lia).
        rewrite tri_div2 in ET. replace (Nat.ltb 64 (tri n)) with false in ET by (symmetry; apply Nat.ltb_ge; lia).
        destruct (enum_chain n) as [LL [E HCh]].
        rewrite (enum_loop_chain LL) in ET; auto.
        - cbn [bind] in ET. injection ET as <-.
          transitivity (std_sort (map label2Number (enum n))); [rewrite E; reflexivity|]. f_equal. apply map_ext_in. intros x Hx. apply enum_In in Hx. destruct Hx as [<- _].
          apply label2Number_code. lia.
        - intros x Hx. rewrite <- E in Hx. apply enum_In in Hx. tauto.
        - pose proof (enum_length_bound n) as B. rewrite E in B. cbn [length] in B. lia. }
      rewrite <- ETT in E2. symmetry. apply rank_nth; [apply HT|auto].
    + rewrite <- L, firstn_all, L.
      destruct (build_spec n t (reachable_TInv t Hr) Hn) as [t' [E HC']].
      exists t'. split.
      * unfold label2Index. rewrite L, E. cbn [bind]. f_equal. f_equal. unfold number2Index.
        rewrite label2Number_code by (rewrite L; lia). rewrite L.
        assert (Hcode : Codes n (code n l)) by (exists l; auto).
        rewrite (rank_indep n (code n l) T t') by auto.
        destruct HC' as [m [M1 [M2 M3]]]. apply find_index_sorted; [apply M3|].
        apply (tab_codes _ _ M3). apply (Codes_prefix n m _ M1). auto.
      * apply (reachable_step t (OResize n) t' Hr); [cbn; lia|]. cbn [parts_step]. unfold parts_resize. rewrite E. auto.
  - intros l L. rewrite <- (tab_len _ _ HT).
    destruct (In_nth_error _ _ (HinT l L)) as [k Hk].
    rewrite (rank_nth _ _ _ (tab_sorted _ _ HT) Hk).
    assert (k < length T) by (apply nth_error_Some; congruence). lia.
  - intros k Hk. destruct (Covers_nth n T HC Hn k Hk) as [c [E [l [L ->]]]].
    exists l. split; auto. apply rank_nth; [apply HT|auto].
  - intros l l' L L'. split.
    + intro E. apply rank_inj in E; [|apply HT|apply HinT; auto|apply HinT; auto].
      split; [lia|]. rewrite L. apply code_eq_iff. auto.
    + intros [_ H]. f_equal. apply code_eq_iff. rewrite L in H. auto.
  - intros l l' L L' Hall.
    assert (Hle : (code n l' <= code n l)%N).
    { unfold code. assert (G : forall a b, length a = length b -> (forall x, In x a -> x = true) -> (val b <= val a)%N).
      { induction a as [|x a IH]; intros [|y b] Lab Ha; cbn in Lab; [reflexivity|discriminate|discriminate|].
        cbn [val]. rewrite (Ha x) by (simpl; auto).
        specialize (IH b ltac:(lia) ltac:(intros; apply Ha; simpl; auto)). destruct y; cbn [bool2N]; lia. }
      apply G; [rewrite !bits_length; auto|]. intros x Hx. unfold bits in Hx. apply in_map_iff in Hx.
      destruct Hx as [[i j] [<- Hij]]. apply pairs_In in Hij. cbn [fst snd]. apply Nat.eqb_eq. apply Hall; lia. }
    destruct (N.eq_dec (code n l') (code n l)) as [->|Ne]; auto.
    assert (rank (code n l') T < rank (code n l) T); [|lia].
    apply sorted_rank_lt; [apply HT|apply HinT; auto|lia].
Qed.

Section PG.
Variable T : Type.
Variable zero : T.
Variable eqb : T -> T -> bool.
Hypothesis eqb_spec : forall a b, eqb a b = true <-> a = b.

(** A well-formed function: at most 11 variables, one value per partition. *)
Definition pg_wf (f : pottsg T) : Prop :=
  length (pg_shape f) <= 11 /\ BellNumber (length (pg_shape f)) = Ret (N.of_nat (length (pg_values f))).

Lemma wf_cnt : forall f, pg_wf f -> N.of_nat (length (pg_values f)) = cnt (length (pg_shape f)) 0.
Proof.
  intros f [H1 H2]. unfold BellNumber in H2. assert (H3 : length (pg_shape f) <= 15) by lia.
  rewrite (rd_Ret _ _ _ _ (cnt_Bell _ H3)) in H2. congruence.
Qed.

Lemma pg_eval_pos : forall t f l t' k v, pg_pos t (length (pg_shape f)) l = Ret (t', Some k) ->
  nth_error (pg_values f) k = Some v -> pg_eval T zero t f l = Ret (t', v).
Proof.
  intros t f l t' k v Hp Hv. unfold pg_pos in Hp. unfold pg_eval. destruct (Nat.leb (length (pg_shape f)) 4).
  - injection Hp as <- ->. rewrite (rd_Ret _ _ _ _ Hv). auto.
  - rewrite Hp. cbn [bind]. rewrite (rd_Ret _ _ _ _ Hv). auto.
Qed.

Lemma pg_set_pos : forall t f l t' k v, pg_pos t (length (pg_shape f)) l = Ret (t', Some k) ->
  k < length (pg_values f) ->
  pg_setByLabel T t f l v = Ret (t', mkPottsG (pg_shape f) (upd (pg_values f) k v)).
Proof.
  intros t f l t' k v Hp Hk. unfold pg_pos in Hp. unfold pg_setByLabel, pg_setByPartition.
  destruct (Nat.leb (length (pg_shape f)) 4).
  - injection Hp as <- ->. rewrite wr_Ret by auto. auto.
  - rewrite Hp. cbn [bind]. rewrite wr_Ret by auto. auto.
Qed.

Lemma isPotts_loop : forall (vs : list T) v0, nth_error vs 0 = Some v0 -> forall k b, k <= length vs - 1 - 1 ->
  exists b', foldM (fun tt i => a <- rd vs 0 ;; b <- rd vs i ;; Ret (tt && eqb a b)) (seq 1 k) b = Ret b' /\
   (b' = true <-> b = true /\ forall i v, 1 <= i <= k -> nth_error vs i = Some v -> v = v0).
Proof.
  intros vs v0 H0 k. induction k as [|k IH]; intros b Hk.
  - exists b. split; auto. split; [|tauto]. intro. split; auto. intros; lia.
  - destruct (IH b ltac:(lia)) as [b' [E Hb]]. rewrite seq_S, foldM_app, E. cbn [bind foldM plus].
    rewrite (rd_Ret _ _ _ _ H0). cbn [bind].
    destruct (nth_error_lt _ vs (S k)) as [v Hv]; [lia|]. rewrite (rd_Ret _ _ _ _ Hv). cbn [bind].
    eexists. split; [reflexivity|]. rewrite andb_true_iff, Hb, eqb_spec. split.
    + intros [[A B] C]. split; auto. intros i x Hi Hx. destruct (Nat.eq_dec i (S k)) as [->|N].
      * congruence.
      * apply (B i); auto. lia.
    + intros [A B]. split; [split; auto; intros; apply (B i); auto; lia|]. symmetry. apply (B (S k)); auto. lia.
Qed.

Lemma C08_main : forall f, pg_wf f -> let n := length (pg_shape f) in
  exists value : list nat -> T,
    (forall t l, parts_reachable t -> length l = n ->
       exists t', pg_eval T zero t f l = Ret (t', value l) /\ parts_reachable t') /\
    (forall l l', length l = n -> same_partition l l' -> value l = value l') /\
    (forall t l v, parts_reachable t -> length l = n ->
       exists t' f', pg_setByLabel T t f l v = Ret (t', f') /\ parts_reachable t' /\ pg_wf f' /\ pg_shape f' = pg_shape f /\
       forall t2 l2, parts_reachable t2 -> length l2 = n ->
         exists t3 v3, pg_eval T zero t2 f' l2 = Ret (t3, v3) /\
           (same_partition l l2 -> v3 = v) /\ (~ same_partition l l2 -> v3 = value l2)) /\
    (exists b, pg_isPotts T eqb f = Ret b /\
       (b = true <-> exists c, forall l, length l = n -> ~ all_equal l -> value l = c)).
Proof.
  intros f Hwf n. pose proof Hwf as [Hn _]. fold n in Hn. pose proof (wf_cnt f Hwf) as Hlen. fold n in Hlen.
  destruct (pg_index n Hn) as [idx [I1 [I2 [I3 [I4 I5]]]]].
  assert (Hrange : forall l, length l = n -> idx l < length (pg_values f)).
  { intros l L. specialize (I2 l L). lia. }
  exists (fun l => nth (idx l) (pg_values f) zero). split; [|split; [|split]].
  - intros t l Hr L. destruct (I1 t l Hr L) as [t' [E Hr']]. exists t'. split; auto.
    apply (pg_eval_pos _ _ _ _ (idx l)); auto. apply nth_error_nth'. auto.
  - intros l l' L HS. f_equal. apply I4; auto. destruct HS as [HS _]. lia.
  - intros t l v Hr L. destruct (I1 t l Hr L) as [t' [E Hr']].
    exists t', (mkPottsG (pg_shape f) (upd (pg_values f) (idx l) v)).
    split; [apply pg_set_pos; auto|]. split; auto. split; [|split; auto].
    + destruct Hwf as [A B]. split; auto. cbn [pg_shape pg_values]. rewrite length_upd. auto.
    + intros t2 l2 Hr2 L2. destruct (I1 t2 l2 Hr2 L2) as [t3 [E3 _]].
      exists t3, (nth (idx l2) (upd (pg_values f) (idx l) v) zero). split; [|split].
      * apply (pg_eval_pos _ _ _ _ (idx l2)); auto. cbn [pg_values]. apply nth_error_nth'. rewrite length_upd. auto.
      * intro HS. apply I4 in HS; auto. rewrite <- HS. apply nth_upd_eq. auto.
      * intro HS. rewrite nth_upd_neq; auto. intro Ei. apply HS. apply I4; auto.
  - pose proof (cnt_pos n 0) as Hpos. unfold pg_isPotts.
    destruct (pg_values f) as [|v0 vs] eqn:Ev; [cbn in Hlen; lia|]. rewrite <- Ev in *.
    assert (H0 : nth_error (pg_values f) 0 = Some v0) by (rewrite Ev; auto).
    destruct (isPotts_loop (pg_values f) v0 H0 (length (pg_values f) - 1 - 1) true (le_n _)) as [b [E Hb]].
    exists b. split; auto. rewrite Hb. 
    (* the all-equal labeling has the last index *)
    assert (Hlast : forall l, length l = n -> all_equal l -> idx l = length (pg_values f) - 1).
    { intros l L HA. destruct (I3 (length (pg_values f) - 1) ltac:(lia)) as [lm [Lm Em]].
      specialize (I5 l lm L Lm HA). specialize (Hrange l L). lia. }
    assert (Hlast2 : forall l, length l = n -> idx l = length (pg_values f) - 1 -> all_equal l).
    { intros l L El. assert (HA : all_equal (repeat 0 n)).
      { intros i j _ _. rewrite !nth_repeat. auto. }
      rewrite <- (Hlast _ (repeat_length 0 n) HA) in El.
      apply I4 in El; auto; [|apply repeat_length]. destruct El as [_ El].
      intros i j Hi Hj. apply El; auto. rewrite !nth_repeat. auto. }
    split.
    + intros [_ H]. exists v0. intros l L HA. specialize (Hrange l L).
      assert (idx l <> length (pg_values f) - 1) by (intro; apply HA, Hlast2; auto).
      destruct (Nat.eq_dec (idx l) 0) as [->|N0].
      * rewrite Ev. auto.
      * apply (H (idx l)); [lia|]. apply nth_error_nth'. auto.
    + intros [c H]. split; auto. intros i v Hi Hv.
      destruct (I3 i ltac:(lia)) as [l [L El]]. destruct (I3 0 ltac:(lia)) as [l0 [L0 El0]].
      assert (v = c).
      { rewrite <- (H l L); [rewrite El; symmetry; apply nth_error_nth; auto|].
        intro HA. apply Hlast in HA; auto. lia. }
      assert (v0 = c).
      { rewrite <- (H l0 L0); [rewrite El0; symmetry; apply nth_error_nth; auto|].
        intro HA. apply Hlast in HA; auto. lia. }
      congruence.
Qed.

Lemma pg_init_spec : forall t shape, parts_reachable t -> length shape <= 11 ->
  exists t' f, pg_init T zero t shape = Ret (t', f) /\ parts_reachable t' /\ pg_shape f = shape /\ pg_wf f /\
    forall v, In v (pg_values f) -> v = zero.
Proof.
  intros t shape Hr Hn. unfold pg_init.
  assert (HB : rd BellTable (length shape) = Ret (cnt (length shape) 0)) by (apply rd_Ret, cnt_Bell; lia).
  assert (Hwf : pg_wf (mkPottsG shape (repeat zero (N.to_nat (cnt (length shape) 0))))).
  { split; cbn [pg_shape pg_values]; auto. rewrite repeat_length, N2Nat.id. auto. }
  destruct (Nat.leb (length shape) 4).
  - rewrite HB. cbn [bind]. eexists. eexists. split; [reflexivity|]. split; auto. split; auto. split; auto.
    cbn [pg_values]. intros v Hv. apply repeat_spec in Hv. auto.
  - destruct (build_spec _ t (reachable_TInv t Hr) Hn) as [t' [E _]].
    unfold parts_resize. rewrite E. cbn [bind]. unfold BellNumber. rewrite HB. cbn [bind].
    eexists. eexists. split; [reflexivity|]. split.
    + apply (reachable_step t (OResize (length shape)) t' Hr); [cbn; lia|]. cbn [parts_step]. unfold parts_resize. rewrite E. auto.
    + split; auto. split; auto. cbn [pg_values]. intros v Hv. apply repeat_spec in Hv. auto.
Qed.

Lemma mapM_rd_all : forall A (l pre : list A), mapM (fun i => rd (pre ++ l) i) (seq (length pre) (length l)) = Ret l.
Proof.
  intros A l. induction l as [|a l IH]; intro pre; auto. cbn [length seq mapM].
  rewrite (rd_Ret _ _ _ a) by (rewrite nth_error_app2, Nat.sub_diag; auto). cbn [bind].
  specialize (IH (pre ++ [a])). rewrite <- app_assoc, app_length in IH. cbn [app length] in IH.
  replace (length pre + 1) with (S (length pre)) in IH by lia. rewrite IH. auto.
Qed.

Lemma pg_roundtrip : forall t f, parts_reachable t -> pg_wf f ->
  exists t', (let '(ind, vals) := pg_serialize T f in pg_deserialize T zero t ind vals) = Ret (t', f) /\ parts_reachable t'.
Proof.
  intros t f Hr Hwf. pose proof Hwf as [Hn HB]. unfold pg_serialize, pg_deserialize.
  cbn [rd nth_error bind]. change (BellNumber ?n) with (rd BellTable n) in HB. rewrite HB. cbn [bind].
  rewrite Nat2N.id.
  replace (mapM (fun i => rd (length (pg_shape f) :: pg_shape f) (S i)) (seq 0 (length (pg_shape f)))) with (Ret (pg_shape f))
    by (symmetry; apply (mapM_rd_all _ (pg_shape f) [])). cbn [bind].
  replace (mapM (fun i => rd (pg_values f) i) (seq 0 (length (pg_values f)))) with (Ret (pg_values f))
    by (symmetry; apply (mapM_rd_all _ (pg_values f) [])). cbn [bind].
  destruct (pg_init_spec t (pg_shape f) Hr Hn) as [t' [f0 [E [Hr' [S0 [W0 _]]]]]].
  unfold pg_init_values. rewrite E. cbn [bind]. exists t'. split; auto.
  assert (L0 : length (pg_values f0) = length (pg_values f)).
  { apply wf_cnt in W0. apply wf_cnt in Hwf. rewrite S0 in W0. lia. }
  rewrite L0, Nat.leb_refl, firstn_all. destruct f. auto.
Qed.
End PG.
