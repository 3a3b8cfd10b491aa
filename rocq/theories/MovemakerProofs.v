(** Proofs about Movemaker: the invariant and the enumeration of moves. *)
From Verif Require Import Base Values GmView GmViewSpec ShapeSpec ShapeProofs GmProofs GmViewProofs MovemakerModel MovemakerSpec.
From Coq Require Import Sorted Permutation.
#[local] Arguments nth_error : simpl never.

(** * Sorted sets *)
Lemma sins_In : forall k s x, In x (sins k s) <-> x = k \/ In x s.
Proof.
  intros k s x. induction s as [|h t IH]; cbn [sins].
  - cbn. intuition.
  - destruct (Nat.ltb_spec k h); [cbn; intuition|]. destruct (Nat.eqb_spec k h); [subst; cbn; intuition|].
    cbn [In]. rewrite IH. intuition.
Qed.
Lemma sins_sorted : forall k s, StronglySorted lt s -> StronglySorted lt (sins k s).
Proof.
  intros k s H. induction H as [|h t H IH F]; cbn [sins]; [repeat constructor|].
  destruct (Nat.ltb_spec k h).
  - constructor; [constructor; auto|]. constructor; auto. eapply Forall_impl; [|exact F]. cbn. lia.
  - destruct (Nat.eqb_spec k h); [constructor; auto|]. constructor; auto.
    apply Forall_forall. intros x Hx. apply sins_In in Hx. destruct Hx as [->|Hx]; [lia|].
    rewrite Forall_forall in F. auto.
Qed.
Lemma sunion_spec : forall t s, StronglySorted lt s ->
  StronglySorted lt (sunion s t) /\ (forall x, In x (sunion s t) <-> In x s \/ In x t).
Proof.
  unfold sunion. induction t as [|k t IH]; intros s H; cbn [fold_left].
  - split; auto. cbn. intuition.
  - destruct (IH (sins k s) (sins_sorted k s H)) as [H1 H2]. split; auto. intros x. rewrite H2, sins_In. cbn. intuition.
Qed.
Lemma sorted_nodup : forall s, StronglySorted lt s -> NoDup s.
Proof.
  intros s H. induction H as [|h t H IH F]; constructor; auto. intros X. rewrite Forall_forall in F. specialize (F h X). lia.
Qed.

(** * Relabeling *)
Lemma relabel_cons : forall x v vs c cs, relabel x (v :: vs) (c :: cs) = relabel (upd x v c) vs cs.
Proof. reflexivity. Qed.
Lemma relabel_length : forall vs cs x, length (relabel x vs cs) = length x.
Proof.
  unfold relabel. intros vs cs. induction (combine vs cs) as [|p l IH]; intros x; cbn; auto. rewrite IH. apply length_upd.
Qed.
Lemma relabel_off : forall vs cs x v, ~ In v vs -> nth v (relabel x vs cs) 0 = nth v x 0.
Proof.
  induction vs as [|w vs IH]; intros cs x v H; auto. destruct cs as [|c cs]; auto. rewrite relabel_cons, IH by (intros X; apply H; right; auto).
  apply nth_upd_neq. intros ->. apply H. left. auto.
Qed.
Lemma upd_comm : forall A (l : list A) i j a b, i <> j -> upd (upd l i a) j b = upd (upd l j b) i a.
Proof.
  intros A l. induction l as [|x l IH]; intros [|i] [|j] a b H; cbn; auto; try congruence. f_equal. apply IH. lia.
Qed.
Lemma relabel_upd : forall vs cs x v c, ~ In v vs -> upd (relabel x vs cs) v c = relabel (upd x v c) vs cs.
Proof.
  induction vs as [|w vs IH]; intros cs x v c H; auto. destruct cs as [|d cs]; auto. rewrite !relabel_cons.
  rewrite IH by (intros X; apply H; right; auto). rewrite upd_comm; auto. intros ->. apply H. left. auto.
Qed.
Lemma relabel_at : forall vs cs x, NoDup vs -> Forall (fun v => v < length x) vs -> length cs = length vs ->
  map (fun v => nth v (relabel x vs cs) 0) vs = cs.
Proof.
  induction vs as [|v vs IH]; intros cs x ND HB HL; destruct cs as [|c cs]; cbn in HL; try discriminate; auto.
  apply NoDup_cons_iff in ND. destruct ND as [NI ND]. apply Forall_cons_iff in HB. destruct HB as [HV HB].
  cbn [map]. rewrite relabel_cons. f_equal.
  - rewrite relabel_off by auto. apply nth_upd_eq. auto.
  - apply IH; auto. eapply Forall_impl; [|exact HB]. intros. rewrite length_upd. auto.
Qed.
Lemma relabel_self : forall vs x, Forall (fun v => v < length x) vs -> relabel x vs (at_vars x vs) = x.
Proof.
  induction vs as [|v vs IH]; intros x H; auto. apply Forall_cons_iff in H. destruct H as [Hv H].
  cbn [at_vars map]. rewrite relabel_cons. rewrite upd_same; [apply IH; auto|]. apply nth_error_nth'. auto.
Qed.
Lemma relabel_relabel : forall vs cs ds x, NoDup vs -> length cs = length vs -> length ds = length vs ->
  relabel (relabel x vs cs) vs ds = relabel x vs ds.
Proof.
  induction vs as [|v vs IH]; intros cs ds x ND H1 H2; auto. destruct cs as [|c cs], ds as [|d ds]; try discriminate.
  apply NoDup_cons_iff in ND. destruct ND as [NI ND]. rewrite !relabel_cons.
  rewrite relabel_upd by auto. rewrite upd_upd_eq. apply IH; auto.
Qed.
Lemma off_eq : forall vs x y, NoDup vs -> Forall (fun v => v < length x) vs -> length y = length x ->
  (forall v, ~ In v vs -> nth v y 0 = nth v x 0) -> y = relabel x vs (at_vars y vs).
Proof.
  intros vs x y ND HB HL H. apply (nth_ext _ _ 0 0); [rewrite relabel_length; auto|]. intros v Hv.
  destruct (in_dec Nat.eq_dec v vs) as [I|I]; [|rewrite relabel_off; auto].
  assert (E : map (fun v => nth v (relabel x vs (at_vars y vs)) 0) vs = at_vars y vs)
    by (apply relabel_at; auto; unfold at_vars; apply map_length).
  unfold at_vars in E at 2. rewrite map_ext_in_iff in E. symmetry. apply E. auto.
Qed.

Lemma Forall2_upd : forall (P : nat -> nat -> Prop) x l v c, Forall2 P x l -> (v < length l -> P c (nth v l 0)) -> Forall2 P (upd x v c) l.
Proof.
  intros P x l v c H. revert v. induction H as [|a b x l Hab H IH]; intros [|v] Hc; cbn [upd]; constructor; auto.
  - apply Hc. cbn. lia.
  - apply IH. intros Hv. apply Hc. cbn. lia.
Qed.
Lemma relabel_in_shape : forall vs cs x (l : list nat), in_shape l x -> in_shape (map (fun v => nth v l 0) vs) cs ->
  in_shape l (relabel x vs cs).
Proof.
  induction vs as [|v vs IH]; intros cs x l Hx H; auto. cbn [map] in H. inversion H as [|c n cs' ns Hc H']; subst.
  rewrite relabel_cons. apply IH; auto. apply Forall2_upd; auto.
Qed.

(** * Loops over parallel lists *)
Lemma foldM_index : forall (A S : Type) (f : S -> nat -> outcome S) (h : S -> A -> outcome S) (l : list A) s,
  (forall s i a, nth_error l i = Some a -> f s i = h s a) ->
  foldM f (seq 0 (length l)) s = foldM h l s.
Proof.
  intros A S f h l s H.
  assert (G : forall l' k s, (forall i a, nth_error l' i = Some a -> nth_error l (k + i) = Some a) ->
     foldM f (seq k (length l')) s = foldM h l' s).
  { induction l' as [|a l' IH]; intros k s0 HN; auto. cbn [length seq foldM].
    rewrite (H s0 k a) by (rewrite <- (Nat.add_0_r k); apply HN; reflexivity).
    destruct (h s0 a); cbn [bind]; auto. apply IH. intros i b E. rewrite Nat.add_succ_comm. apply HN. exact E. }
  apply G. intros. rewrite Nat.add_0_l. auto.
Qed.

Lemma nth_error_combine : forall A B (l : list A) (r : list B) i a b,
  nth_error (combine l r) i = Some (a, b) -> nth_error l i = Some a /\ nth_error r i = Some b.
Proof.
  intros A B. induction l as [|x l IH]; intros r i a b H; [destruct i; discriminate|].
  destruct r as [|y r]; [destruct i; discriminate|]. destruct i as [|i].
  - change (Some (x, y) = Some (a, b)) in H. injection H as <- <-. auto.
  - change (nth_error (combine l r) i = Some (a, b)) in H. apply IH in H. exact H.
Qed.

(** Writing labels to the listed variables. *)
Lemma write_loop : forall vars dest x, length dest = length vars -> Forall (fun v => v < length x) vars ->
  foldM (fun b i => v <- rd vars i ;; d <- rd dest i ;; wr b v d) (seq 0 (length vars)) x = Ret (relabel x vars dest).
Proof.
  intros vars dest x HL HB.
  replace (length vars) with (length (combine vars dest)) by (rewrite combine_length; lia).
  rewrite (foldM_index _ _ _ (fun b p => wr b (fst p) (snd p)) (combine vars dest)).
  - revert dest x HL HB. induction vars as [|v vars IH]; intros [|d dest] x HL HB; try discriminate; auto.
    apply Forall_cons_iff in HB. destruct HB as [HV HB].
    cbn [combine foldM fst snd]. rewrite wr_Ret by auto. cbn [bind]. rewrite relabel_cons. apply IH; [cbn in HL; lia|].
    eapply Forall_impl; [|exact HB]. intros. rewrite length_upd. auto.
  - intros s i [v d] E. apply nth_error_combine in E. destruct E as [E1 E2].
    rewrite (rd_Ret _ _ _ _ E1). cbn [bind]. rewrite (rd_Ret _ _ _ _ E2). auto.
Qed.
Lemma write2_loop : forall vars dest x y, length dest = length vars -> Forall (fun v => v < length x) vars -> Forall (fun v => v < length y) vars ->
  foldM (fun (p : list nat * list nat) i => v <- rd vars i ;; d <- rd dest i ;;
           st <- wr (fst p) v d ;; buf <- wr (snd p) v d ;; Ret (st, buf)) (seq 0 (length vars)) (x, y) =
  Ret (relabel x vars dest, relabel y vars dest).
Proof.
  intros vars dest x y HL HB HC.
  replace (length vars) with (length (combine vars dest)) by (rewrite combine_length; lia).
  rewrite (foldM_index _ _ _ (fun (p : list nat * list nat) q => st <- wr (fst p) (fst q) (snd q) ;; buf <- wr (snd p) (fst q) (snd q) ;; Ret (st, buf)) (combine vars dest)).
  - revert dest x y HL HB HC. induction vars as [|v vars IH]; intros [|d dest] x y HL HB HC; try discriminate; auto.
    apply Forall_cons_iff in HB. destruct HB as [HV HB]. apply Forall_cons_iff in HC. destruct HC as [HW HC].
    cbn [combine foldM fst snd]. rewrite !wr_Ret by auto. cbn [bind]. rewrite !relabel_cons. apply IH; [cbn in HL; lia| |].
    + eapply Forall_impl; [|exact HB]. intros. rewrite length_upd. auto.
    + eapply Forall_impl; [|exact HC]. intros. rewrite length_upd. auto.
  - intros s i [v d] E. apply nth_error_combine in E. destruct E as [E1 E2].
    rewrite (rd_Ret _ _ _ _ E1). cbn [bind]. rewrite (rd_Ret _ _ _ _ E2). auto.
Qed.
Lemma restore_ret : forall vars x b, length b = length x -> Forall (fun v => v < length x) vars ->
  restore x b vars = Ret (relabel b vars (at_vars x vars)).
Proof.
  unfold restore. induction vars as [|v vars IH]; intros x b HL HB; auto.
  apply Forall_cons_iff in HB. destruct HB as [HV HB]. cbn [foldM]. rewrite (rd_nth _ x v 0 HV). cbn [bind].
  rewrite wr_Ret by lia. cbn [bind]. rewrite IH; auto. rewrite length_upd. auto.
Qed.
Lemma relabel_back : forall vars x b, NoDup vars -> Forall (fun v => v < length x) vars -> length b = length x ->
  (forall v, ~ In v vars -> nth v b 0 = nth v x 0) -> relabel b vars (at_vars x vars) = x.
Proof.
  intros vars x b ND HB HL H. rewrite (off_eq vars x b) by auto. rewrite relabel_relabel; auto; unfold at_vars; rewrite ?map_length; auto.
  apply relabel_self. auto.
Qed.
Lemma write_const : forall vars z x, Forall (fun v => v < length x) vars ->
  foldM (fun b v => wr b v z) vars x = Ret (relabel x vars (repeat z (length vars))).
Proof.
  induction vars as [|v vars IH]; intros z x HB; auto. apply Forall_cons_iff in HB. destruct HB as [HV HB].
  cbn [foldM length repeat]. rewrite wr_Ret by auto. cbn [bind]. rewrite relabel_cons. apply IH.
  eapply Forall_impl; [|exact HB]. intros. rewrite length_upd. auto.
Qed.

(** * Enumeration of labels: [opts] lists the labels tried for each variable, [p] the positions *)
Definition tup (opts : list (list nat)) (p : list nat) : list nat := map (fun q => nth (snd q) (fst q) 0) (combine opts p).
Lemma tup_cons : forall o opts a p, tup (o :: opts) (a :: p) = nth a o 0 :: tup opts p. Proof. reflexivity. Qed.
Lemma tup_length : forall opts p, length p = length opts -> length (tup opts p) = length opts.
Proof. intros. unfold tup. rewrite map_length, combine_length. lia. Qed.

Definition last_pos (opts : list (list nat)) (p : list nat) : Prop := Forall2 (fun o a => S a = length o) opts p.

Lemma incr_state_spec : forall (next : nat -> nat -> outcome (option nat)) (first : nat -> outcome nat) vars opts p x,
  NoDup vars -> Forall (fun v => v < length x) vars -> vars <> [] ->
  Forall2 (fun v o => first v = Ret (nth 0 o 0) /\ forall a, a < length o -> next v (nth a o 0) = Ret (nth_error o (S a))) vars opts ->
  Forall2 (fun o a => a < length o) opts p ->
  (last_pos opts p /\ exists b, incr_state next first vars (relabel x vars (tup opts p)) = Ret (b, true) /\
     length b = length x /\ forall v, ~ In v vars -> nth v b 0 = nth v x 0)
  \/ (~ last_pos opts p /\ incr_state next first vars (relabel x vars (tup opts p)) = Ret (relabel x vars (tup opts (incr (map (@length _) opts) p)), false)).
Proof.
  intros next first. induction vars as [|v vars IH]; intros opts p x ND HB HN HS HP; [congruence|]. clear HN.
  inversion HS as [|? o ? opts' [HF HX] HS']; subst. inversion HP as [|? a ? p' Ha HP']; subst. clear HS HP.
  rename opts' into opts. rename p' into p.
  apply NoDup_cons_iff in ND. destruct ND as [NI ND]. apply Forall_cons_iff in HB. destruct HB as [HV HB].
  cbn [incr_state]. rewrite tup_cons, relabel_cons.
  assert (Hr : rd (relabel (upd x v (nth a o 0)) vars (tup opts p)) v = Ret (nth a o 0)).
  { rewrite (rd_nth _ _ v 0) by (rewrite relabel_length, length_upd; auto). rewrite relabel_off by auto. rewrite nth_upd_eq by auto. auto. }
  rewrite Hr. cbn [bind]. rewrite (HX a Ha). cbn [bind].
  destruct (nth_error o (S a)) as [b'|] eqn:E.
  - right. assert (S a < length o) by (apply nth_error_Some; congruence). split.
    + intros L. inversion L; subst. lia.
    + rewrite wr_Ret by (rewrite relabel_length, length_upd; auto). cbn [bind]. cbn [map incr].
      destruct (Nat.eqb_spec (S a) (length o)); [lia|]. rewrite tup_cons, relabel_cons, relabel_upd, upd_upd_eq by auto.
      rewrite (nth_error_nth _ _ 0 E). auto.
  - assert (S a = length o) by (apply nth_error_None in E; lia).
    destruct vars as [|w vars].
    + left. inversion HS'; subst. inversion HP'; subst. split; [constructor; [auto|constructor]|]. eexists. split; [reflexivity|].
      split; [rewrite relabel_length, length_upd; auto|]. intros u Hu. rewrite relabel_off by (intros []). apply nth_upd_neq. intros ->. apply Hu. left. auto.
    + rewrite HF. cbn [bind]. rewrite wr_Ret by (rewrite relabel_length, length_upd; auto). cbn [bind].
      rewrite relabel_upd, upd_upd_eq by auto. set (x' := upd x v (nth 0 o 0)).
      assert (HB' : Forall (fun v => v < length x') (w :: vars)) by (unfold x'; rewrite length_upd; auto).
      destruct (IH opts p x' ND HB' ltac:(discriminate) HS' HP') as [[HL (b & E1 & E2 & E3)]|[HL E1]].
      * left. split; [constructor; auto|]. exists b. split; [exact E1|]. split; [unfold x' in E2; rewrite length_upd in E2; auto|].
        intros u Hu. rewrite E3 by (intros X; apply Hu; right; auto). unfold x'. apply nth_upd_neq. intros ->. apply Hu. left. auto.
      * right. split; [intros L; inversion L; subst; auto|]. rewrite E1. cbn [map incr].
        destruct (Nat.eqb_spec (S a) (length o)); [|lia]. rewrite tup_cons, relabel_cons. reflexivity.
Qed.

Lemma last_pos_size : forall opts k, Forall (fun o => 0 < length o) opts -> k < size_of (map (@length _) opts) ->
  last_pos opts (coord_of (map (@length nat) opts) k) <-> S k = size_of (map (@length _) opts).
Proof.
  induction opts as [|o opts IH]; intros k H Hk.
  - cbn in *. split; [lia|]. intros. constructor.
  - apply Forall_cons_iff in H. destruct H as [Ho H]. cbn [map coord_of size_of fold_right] in *.
    fold (size_of (map (@length nat) opts)) in *. set (n := length o) in *. set (s := size_of (map (@length nat) opts)) in *.
    assert (Hd : k / n < s) by (apply Nat.div_lt_upper_bound; lia).
    pose proof (Nat.div_mod k n ltac:(lia)) as E. pose proof (Nat.mod_upper_bound k n ltac:(lia)) as M.
    split.
    + intros L. inversion L; subst. assert (S (k / n) = s) as X by (apply IH; auto). subst n. nia.
    + intros X. assert (S (k mod n) = n /\ S (k / n) = s) as [X1 X2] by nia. constructor; auto. apply IH; auto.
Qed.

Lemma tup_In : forall opts p, Forall2 (fun o a => a < length o) opts p -> Forall2 (fun c o => In c o) (tup opts p) opts.
Proof.
  intros opts p H. induction H as [|o a opts p Ha H IH]; [constructor|]. rewrite tup_cons. constructor; auto. apply nth_In. auto.
Qed.
Lemma In_tup : forall opts c, Forall2 (fun c o => In c o) c opts ->
  exists p, in_shape (map (@length nat) opts) p /\ tup opts p = c.
Proof.
  intros opts c H. induction H as [|a o c opts Ha H [p [Hp E]]].
  - exists []. split; constructor.
  - apply (In_nth o a 0) in Ha. destruct Ha as (i & Hi & Ei). exists (i :: p). split; [constructor; auto|].
    rewrite tup_cons. congruence.
Qed.
Lemma in_shape_opts : forall opts p, in_shape (map (@length nat) opts) p -> Forall2 (fun o a => a < length o) opts p.
Proof.
  induction opts as [|o opts IH]; intros p H; inversion H; subst; constructor; auto.
Qed.
Lemma in_shape_labels_off : forall (l : list nat) vs c, in_shape (map (fun v => nth v l 0) vs) c -> length c = length vs.
Proof. intros l vs c H. apply in_shape_length in H. rewrite map_length in H. auto. Qed.

Section M.
Variable T : Type.
Variable OP : oper T.
Variable mult : bool.
Variable recompute : T -> bool.
Variable fin : T -> Prop.
Hypothesis OL : op_laws fin OP.
Variable g : gmv T.
Hypothesis W : wf_gmv g.
Hypothesis FG : fin_gmv fin g.
Let n := length (v_labels g).
Let nf := length (v_factors g).

(** The factors of each variable. *)
Definition fov_ok (fov : list (list nat)) : Prop :=
  length fov = n /\ forall v s, nth_error fov v = Some s ->
    StronglySorted lt s /\ forall k, In k s <-> exists fc, nth_error (v_factors g) k = Some fc /\ In v (fst fc).

Lemma factorsOfVariable_ok : exists fov, factorsOfVariable T g = Ret fov /\ fov_ok fov.
Proof.
  unfold factorsOfVariable. fold nf n.
  assert (G : forall j, j <= nf -> exists fov,
    foldM (fun fov f => ' (vis, _) <- rd (v_factors g) f ;; foldM (fun fov v => s <- rd fov v ;; wr fov v (sins f s)) vis fov)
        (seq 0 j) (repeat [] n) = Ret fov /\ length fov = n /\ forall v s, nth_error fov v = Some s ->
    StronglySorted lt s /\ forall k, In k s <-> k < j /\ exists fc, nth_error (v_factors g) k = Some fc /\ In v (fst fc)).
  { induction j as [|j IH]; intros Hj.
    - exists (repeat [] n). split; auto. split; [apply repeat_length|]. intros v s E. apply nth_error_In in E. apply repeat_spec in E. subst.
      split; [constructor|]. intros k. split; [intros []|lia].
    - destruct IH as (fov & E & L & H); [lia|]. rewrite seq_S, foldM_app, E. cbn [bind foldM]. rewrite Nat.add_0_l.
      destruct (nth_error (v_factors g) j) as [[vis f]|] eqn:Ej; [|apply nth_error_None in Ej; fold nf in Ej; lia].
      rewrite (rd_Ret _ _ _ _ Ej). cbn [bind].
      destruct (wf_nth _ _ _ _ W Ej) as [_ HB]. cbn [fst] in HB. fold n in HB.
      assert (I : forall l fov0, Forall (fun v => v < n) l -> length fov0 = n ->
         (forall v s, nth_error fov0 v = Some s -> StronglySorted lt s) ->
         exists fov', foldM (fun fov v => s <- rd fov v ;; wr fov v (sins j s)) l fov0 = Ret fov' /\ length fov' = n /\
           forall v s, nth_error fov' v = Some s -> StronglySorted lt s /\ exists s0, nth_error fov0 v = Some s0 /\
              forall k, In k s <-> In k s0 \/ (k = j /\ In v l)).
      { clear. induction l as [|v l IH]; intros fov0 HB L HS.
        - exists fov0. split; auto. split; auto. intros v s E. split; [eapply HS; eauto|]. exists s. split; auto. cbn. intuition.
        - apply Forall_cons_iff in HB. destruct HB as [HV HB]. cbn [foldM].
          assert (exists s, nth_error fov0 v = Some s) as [s Es].
          { destruct (nth_error fov0 v) eqn:E; eauto. apply nth_error_None in E. lia. }
          rewrite (rd_Ret _ _ _ _ Es). cbn [bind]. rewrite wr_Ret by lia. cbn [bind].
          destruct (IH (upd fov0 v (sins j s)) HB) as (fov' & E' & L' & H').
          { rewrite length_upd. auto. }
          { intros w t Ew. destruct (Nat.eq_dec v w) as [->|N].
            - rewrite nth_error_upd_eq in Ew by lia. injection Ew as <-. apply sins_sorted. eapply HS; eauto.
            - rewrite nth_error_upd_neq in Ew by auto. eapply HS; eauto. }
          exists fov'. split; auto. split; auto. intros w t Ew. destruct (H' w t Ew) as (S1 & s0 & E0 & Hk). split; auto.
          destruct (Nat.eq_dec v w) as [->|N].
          + rewrite nth_error_upd_eq in E0 by lia. injection E0 as <-. exists s. split; auto. intros k. rewrite Hk, sins_In. cbn. intuition.
          + rewrite nth_error_upd_neq in E0 by auto. exists s0. split; auto. intros k. rewrite Hk. cbn. intuition. }
      destruct (I vis fov HB L) as (fov' & E' & L' & H'). { intros v s Ev. eapply H; eauto. }
      exists fov'. split; [rewrite E'; auto|]. split; auto. intros v s Ev. destruct (H' v s Ev) as (S1 & s0 & E0 & Hk). split; auto.
      intros k. rewrite Hk. destruct (H v s0 E0) as [_ H0]. rewrite H0. split.
      + intros [[A (fc & B)]|[-> B]]; [split; [lia|eauto]|split; [lia|]]. exists (vis, f). auto.
      + intros [A (fc & B & C)]. destruct (Nat.eq_dec k j) as [->|N]; [right|left; split; [lia|eauto]].
        rewrite Ej in B. injection B as <-. auto. }
  destruct (G nf (le_n _)) as (fov & E & L & H). exists fov. split; auto. split; auto. intros v s Ev. destruct (H v s Ev) as [H1 H2].
  split; auto. intros k. rewrite H2. split; [intros [_ X]; auto|]. intros (fc & A & B). split; [|eauto]. apply nth_error_Some. congruence.
Qed.

(** The invariant. *)
Definition mm_ok (m : mm T) : Prop :=
  fov_ok (mm_fov m) /\ labeling g (mm_state m) /\ mm_buf m = mm_state m /\ mm_energy m = total OP g (mm_state m).

Lemma zero_labeling : labeling g (repeat 0 n).
Proof. apply positive_in_shape_0. apply W. Qed.

Lemma copy_labels_ok : forall x, length x = n -> copy_labels T g x = Ret x.
Proof.
  intros x H. unfold copy_labels. fold n. rewrite <- H. rewrite mapM_rd by (apply Forall_forall; intros v Hv; apply in_seq in Hv; lia).
  f_equal. unfold at_vars. apply (nth_ext _ _ 0 0); [rewrite map_length, seq_length; auto|]. intros i Hi. rewrite map_length, seq_length in Hi.
  rewrite (nth_indep _ 0 (nth 0 x 0)) by (rewrite map_length, seq_length; auto).
  rewrite (map_nth (fun v => nth v x 0)). rewrite seq_nth by auto. auto.
Qed.

Lemma mm_new_ok : exists m, mm_new T OP g = Ret m /\ mm_ok m /\ mm_state m = repeat 0 n.
Proof.
  unfold mm_new. destruct factorsOfVariable_ok as (fov & E & H). fold n. rewrite (v_evaluate_total T OP g) by (auto; apply repeat_length).
  cbn [bind]. rewrite E. cbn [bind]. eexists. split; [reflexivity|]. split; [|auto]. split; [exact H|]. split; [apply zero_labeling|]. auto.
Qed.
Lemma mm_new_at_ok : forall x, labeling g x -> exists m, mm_new_at T OP g x = Ret m /\ mm_ok m /\ mm_state m = x.
Proof.
  intros x L. unfold mm_new_at. destruct factorsOfVariable_ok as (fov & E & H). pose proof (labeling_length _ g x L) as LL.
  rewrite (v_evaluate_total T OP g) by auto. cbn [bind]. rewrite copy_labels_ok by auto. cbn [bind]. rewrite E. cbn [bind].
  eexists. split; [reflexivity|]. split; [|auto]. split; [exact H|]. auto.
Qed.
Lemma mm_initialize_ok : forall m x, mm_ok m -> labeling g x -> exists m', mm_initialize T OP g m x = Ret m' /\ mm_ok m' /\ mm_state m' = x.
Proof.
  intros m x O L. unfold mm_initialize. pose proof (labeling_length _ g x L) as LL.
  rewrite (v_evaluate_total T OP g) by auto. cbn [bind]. rewrite copy_labels_ok by auto. cbn [bind].
  eexists. split; [reflexivity|]. split; [|auto]. split; [apply O|]. auto.
Qed.
Lemma mm_reset_ok : forall m, mm_ok m -> exists m', mm_reset T OP g m = Ret m' /\ mm_ok m' /\ mm_state m' = repeat 0 n.
Proof.
  intros m O. unfold mm_reset. fold n. rewrite (v_evaluate_total T OP g) by (auto; apply repeat_length). cbn [bind].
  eexists. split; [reflexivity|]. split; [|auto]. split; [apply O|]. split; [apply zero_labeling|auto].
Qed.

(** Sets of factors that contain all factors of some variables. *)
Definition covers (F : list nat) (vars : list nat) : Prop :=
  StronglySorted lt F /\ (forall k, In k F -> k < nf) /\
  forall v k fc, In v vars -> nth_error (v_factors g) k = Some fc -> In v (fst fc) -> In k F.

Lemma covers_agree : forall F vars x y, covers F vars -> (forall v, ~ In v vars -> nth v x 0 = nth v y 0) -> agree_off T g F x y.
Proof.
  intros F vars x y (_ & _ & H) E k fc Hk NI v Hv. destruct (in_dec Nat.eq_dec v vars) as [I|I]; auto.
  exfalso. apply NI. eapply H; eauto.
Qed.

Lemma big_evaluate : forall F x, labeling g x -> (forall k, In k F -> k < nf) ->
  evaluateFactors T OP g F x = Ret (big T OP F (fun k => val T OP g k x)).
Proof.
  intros F x L HB. unfold evaluateFactors.
  assert (G : forall F acc, (forall k, In k F -> k < nf) ->
     foldM (fun acc f => fc <- rd (v_factors g) f ;; v <- fvalue T fc x ;; Ret (o_op OP v acc)) F acc =
     Ret (fold_left (fun acc k => o_op OP (val T OP g k x) acc) F acc)).
  { clear F HB. induction F as [|k F IH]; intros acc HB; auto. cbn [foldM fold_left].
    destruct (nth_error (v_factors g) k) as [fc|] eqn:E; [|apply nth_error_None in E; specialize (HB k (or_introl eq_refl)); fold nf in E; lia].
    rewrite (rd_Ret _ _ _ _ E). cbn [bind]. rewrite fvalue_Ret.
    - cbn [bind]. rewrite IH by (intros; apply HB; right; auto). assert (val T OP g k x = snd fc (at_vars x (fst fc))) as -> by (unfold val; rewrite E; auto). auto.
    - rewrite (labeling_length _ g x L). apply (wf_nth _ _ _ _ W E). }
  rewrite G by auto. rewrite (big_fold_left T OP fin OL); [|apply (ol_neutral _ _ OL)|intros; apply (val_fin T OP fin OL); auto].
  rewrite (op_unit_r T OP fin OL); auto. apply (big_fin T OP fin OL). intros. apply (val_fin T OP fin OL); auto.
Qed.

Lemma recompute_ok : forall m vars, mm_ok m -> Forall (fun v => v < n) vars ->
  exists F, factorsToRecompute T m vars = Ret F /\ covers F vars.
Proof.
  intros m vars (HF & _) HB. unfold factorsToRecompute.
  assert (G : forall l F0, Forall (fun v => v < n) l -> StronglySorted lt F0 -> (forall k, In k F0 -> k < nf) ->
     exists F, foldM (fun F v => fv <- rd (mm_fov m) v ;; Ret (sunion F fv)) l F0 = Ret F /\
       StronglySorted lt F /\ (forall k, In k F -> k < nf) /\ (forall k, In k F0 -> In k F) /\
       (forall v k fc, In v l -> nth_error (v_factors g) k = Some fc -> In v (fst fc) -> In k F)).
  { induction l as [|v l IH]; intros F0 HL S0 B0.
    - exists F0. split; auto. repeat split; auto. intros v k fc [].
    - apply Forall_cons_iff in HL. destruct HL as [HV HL]. cbn [foldM].
      destruct HF as [Lf HF]. destruct (nth_error (mm_fov m) v) as [s|] eqn:E; [|apply nth_error_None in E; lia].
      rewrite (rd_Ret _ _ _ _ E). cbn [bind]. destruct (HF v s E) as [Ss Hs]. destruct (sunion_spec s F0 S0) as [S1 H1].
      destruct (IH (sunion F0 s) HL S1) as (F & EF & SF & BF & CF & DF).
      { intros k Hk. apply H1 in Hk. destruct Hk as [Hk|Hk]; auto. apply Hs in Hk. destruct Hk as (fc & A & _). apply nth_error_Some. congruence. }
      exists F. split; auto. split; auto. split; auto. split; [intros k Hk; apply CF, H1; auto|].
      intros w k fc [<-|Hw] A B; [|eapply DF; eauto]. apply CF, H1. right. apply Hs. eauto. }
  destruct (G vars [] HB) as (F & E & S1 & B1 & _ & D1); [constructor|intros k []|]. exists F. split; auto. split; auto.
Qed.

(** Change of the total value when only the factors in [F] change. *)
Lemma total_change : forall F vars x y, covers F vars -> labeling g x -> labeling g y -> (forall v, ~ In v vars -> nth v x 0 = nth v y 0) ->
  exists r, fin r /\ total OP g x = o_op OP (big T OP F (fun k => val T OP g k x)) r /\
                     total OP g y = o_op OP (big T OP F (fun k => val T OP g k y)) r.
Proof.
  intros F vars x y C Lx Ly H. destruct C as (S1 & B1 & D1).
  exists (big T OP (filter (fun k => negb (mem k F)) (seq 0 nf)) (fun k => val T OP g k x)). split; [|split].
  - apply (big_fin T OP fin OL). intros. apply (val_fin T OP fin OL); auto.
  - apply (total_split T OP fin OL); auto. apply sorted_nodup; auto.
  - unfold nf. rewrite (rest_agree T OP g F x y).
    + apply (total_split T OP fin OL); auto. apply sorted_nodup; auto.
    + eapply covers_agree; eauto. split; auto.
Qed.

Lemma partial_update : forall F x y e, labeling g x -> labeling g y -> fin e -> (forall k, In k F -> k < nf) ->
  foldM (fun dv f => fc <- rd (v_factors g) f ;; cur <- fvalue T fc x ;; dst <- fvalue T fc y ;;
           Ret (o_iop OP cur (o_op OP dst dv))) F (o_op OP (big T OP F (fun k => val T OP g k x)) e) =
  Ret (o_op OP (big T OP F (fun k => val T OP g k y)) e).
Proof.
  induction F as [|k F IH]; intros x y e Lx Ly Fe HB; auto.
  cbn [foldM]. destruct (nth_error (v_factors g) k) as [fc|] eqn:E; [|apply nth_error_None in E; specialize (HB k (or_introl eq_refl)); fold nf in E; lia].
  rewrite (rd_Ret _ _ _ _ E). cbn [bind].
  assert (V : forall z, labeling g z -> fvalue T fc z = Ret (val T OP g k z)).
  { intros z Lz. rewrite fvalue_Ret; [unfold val; rewrite E; auto|]. rewrite (labeling_length _ g z Lz). apply (wf_nth _ _ _ _ W E). }
  rewrite !V by auto. cbn [bind]. rewrite !big_cons.
  set (vx := val T OP g k x). set (vy := val T OP g k y).
  assert (Fx : fin vx) by (apply (val_fin T OP fin OL); auto). assert (Fy : fin vy) by (apply (val_fin T OP fin OL); auto).
  set (bx := big T OP F (fun k => val T OP g k x)).
  assert (Fb : fin bx) by (apply (big_fin T OP fin OL); intros; apply (val_fin T OP fin OL); auto).
  assert (E1 : o_iop OP vx (o_op OP vy (o_op OP (o_op OP vx bx) e)) = o_op OP bx (o_op OP vy e)).
  { rewrite <- (ol_undo _ _ OL vx (o_op OP bx (o_op OP vy e))) by (auto; repeat apply (ol_op _ _ OL); auto). f_equal.
    rewrite <- (ol_assoc _ _ OL vx bx e) by auto.
    rewrite (ol_assoc _ _ OL vy vx) by (auto; apply (ol_op _ _ OL); auto). rewrite (ol_comm _ _ OL vy vx) by auto.
    rewrite <- (ol_assoc _ _ OL vx vy) by (auto; apply (ol_op _ _ OL); auto). f_equal.
    rewrite !(ol_assoc _ _ OL) by auto. f_equal. apply (ol_comm _ _ OL); auto. }
  rewrite E1. unfold bx. rewrite IH; [|auto|auto|apply (ol_op _ _ OL); auto|intros; apply HB; right; auto].
  f_equal. set (by_ := big T OP F (fun k => val T OP g k y)).
  assert (Fc : fin by_) by (apply (big_fin T OP fin OL); intros; apply (val_fin T OP fin OL); auto).
  rewrite !(ol_assoc _ _ OL) by auto. f_equal. apply (ol_comm _ _ OL); auto.
Qed.

Lemma relabel_labeling : forall x vars dest, labeling g x -> in_shape (labels_of g vars) dest -> labeling g (relabel x vars dest).
Proof. intros. apply relabel_in_shape; auto. Qed.

Lemma valueAfterMove_ok : forall m vars dest, mm_ok m -> distinct_vars g vars -> in_shape (labels_of g vars) dest ->
  valueAfterMove T OP mult g m vars dest = Ret (m, total OP g (relabel (mm_state m) vars dest)).
Proof.
  intros m vars dest O [ND HB] HD. pose proof O as O'. destruct O as (HF & L & HBuf & HE). fold n in HB.
  pose proof (labeling_length _ g _ L) as LL. fold n in LL. pose proof (relabel_labeling _ _ _ L HD) as LD.
  pose proof (in_shape_labels_off _ _ _ HD) as HLd.
  assert (HBS : Forall (fun v => v < length (mm_state m)) vars) by (rewrite LL; auto).
  assert (R : restore (mm_state m) (relabel (mm_state m) vars dest) vars = Ret (mm_state m)).
  { rewrite restore_ret by (auto; apply relabel_length). rewrite relabel_back; auto.
    - apply relabel_length. - intros. apply relabel_off. auto. }
  assert (EM : mkMm (mm_fov m) (mm_state m) (mm_state m) (mm_energy m) = m) by (rewrite <- HBuf at 2; destruct m; auto).
  unfold valueAfterMove. rewrite HBuf. destruct mult.
  - rewrite write_loop by auto. cbn [bind]. rewrite (v_evaluate_total T OP g) by (auto; rewrite relabel_length; auto). cbn [bind].
    rewrite R. cbn [bind]. rewrite EM. auto.
  - (* the loop over the variables *)
    set (x := mm_state m) in *.
    assert (G : exists F, foldM (fun (p : list nat * list nat) i =>
                    v <- rd vars i ;; d <- rd dest i ;; s <- rd x v ;;
                    if s =? d then Ret p
                    else b <- wr (fst p) v d ;; fv <- rd (mm_fov m) v ;; Ret (b, sunion (snd p) fv))
                  (seq 0 (length vars)) (x, []) = Ret (relabel x vars dest, F) /\
               exists ch, covers F ch /\ forall v, ~ In v ch -> nth v x 0 = nth v (relabel x vars dest) 0).
    { replace (length vars) with (length (combine vars dest)) by (rewrite combine_length; lia).
      rewrite (foldM_index _ _ _ (fun (p : list nat * list nat) q => s <- rd x (fst q) ;;
                    if s =? snd q then Ret p
                    else b <- wr (fst p) (fst q) (snd q) ;; fv <- rd (mm_fov m) (fst q) ;; Ret (b, sunion (snd p) fv)) (combine vars dest)).
      2:{ intros p i [v d] E. apply nth_error_combine in E. destruct E as [E1 E2].
          rewrite (rd_Ret _ _ _ _ E1). cbn [bind]. rewrite (rd_Ret _ _ _ _ E2). auto. }
      assert (G : forall vs ds y F0 ch0, NoDup vs -> length ds = length vs -> Forall (fun v => v < length x) vs -> length y = length x ->
                 (forall v, In v vs -> nth v y 0 = nth v x 0) ->
                 covers F0 ch0 -> (forall v, ~ In v ch0 -> nth v x 0 = nth v y 0) ->
         exists F, foldM (fun (p : list nat * list nat) q => s <- rd x (fst q) ;;
                    if s =? snd q then Ret p
                    else b <- wr (fst p) (fst q) (snd q) ;; fv <- rd (mm_fov m) (fst q) ;; Ret (b, sunion (snd p) fv))
               (combine vs ds) (y, F0) = Ret (relabel y vs ds, F) /\
           exists ch, covers F ch /\ forall v, ~ In v ch -> nth v x 0 = nth v (relabel y vs ds) 0).
      { induction vs as [|v vs IH]; intros [|d ds] y F0 ch0 ND1 HL1 HB1 HY HSame HC HOff; try discriminate.
        - exists F0. split; auto. exists ch0. auto.
        - apply NoDup_cons_iff in ND1. destruct ND1 as [NI ND1]. apply Forall_cons_iff in HB1. destruct HB1 as [HV HB1].
          cbn [combine foldM fst snd]. rewrite (rd_nth _ x v 0 HV). cbn [bind]. rewrite relabel_cons.
          destruct (Nat.eqb_spec (nth v x 0) d) as [E|E].
          + cbn [bind]. rewrite (upd_same _ y v d).
            * apply (IH ds y F0 ch0); auto. intros w Hw. apply HSame. right. auto.
            * rewrite <- E, <- (HSame v) by (left; auto). apply nth_error_nth'. lia.
          + rewrite wr_Ret by lia. cbn [bind].
            destruct HF as [Lf HF]. destruct (nth_error (mm_fov m) v) as [s|] eqn:Ef; [|apply nth_error_None in Ef; lia].
            rewrite (rd_Ret _ _ _ _ Ef). cbn [bind]. destruct (HF v s Ef) as [Ss Hs]. destruct HC as (S0 & B0 & D0).
            destruct (sunion_spec s F0 S0) as [S1 H1].
            apply (IH ds (upd y v d) (sunion F0 s) (v :: ch0)); auto.
            * rewrite length_upd. auto.
            * intros w Hw. rewrite nth_upd_neq by (intros ->; auto). apply HSame. right. auto.
            * split; auto. split.
              -- intros k Hk. apply H1 in Hk. destruct Hk as [Hk|Hk]; auto. apply Hs in Hk. destruct Hk as (fc & A & _). apply nth_error_Some. congruence.
              -- intros w k fc [<-|Hw] A B; apply H1; [right; apply Hs; eauto|left; eapply D0; eauto].
            * intros w Hw. rewrite nth_upd_neq by (intros ->; apply Hw; left; auto). apply HOff. intros X. apply Hw. right. auto. }
      apply (G vars dest x [] []); auto. split; [constructor|]. split; [intros k []|intros v k fc []]. }
    destruct G as (F & -> & ch & C & HOff). cbn [bind].
    destruct (total_change F ch x (relabel x vars dest) C L LD HOff) as (r & Fr & E1 & E2).
    rewrite HE, E1, partial_update by (auto; apply C). cbn [bind]. rewrite R. cbn [bind].
    rewrite <- E1, <- HE, EM, E2. auto.
Qed.

Lemma move_ok : forall m vars dest, mm_ok m -> distinct_vars g vars -> in_shape (labels_of g vars) dest ->
  let x' := relabel (mm_state m) vars dest in
  move T OP mult g m vars dest = Ret (mkMm (mm_fov m) x' x' (total OP g x'), total OP g x').
Proof.
  intros m vars dest O DV HD x'. unfold move. rewrite valueAfterMove_ok by auto. cbn [bind].
  destruct O as (HF & L & HBuf & HE). rewrite HBuf. pose proof (labeling_length _ g _ L) as LL. destruct DV as [ND HB].
  pose proof (in_shape_labels_off _ _ _ HD) as HLd.
  rewrite write2_loop by (auto; rewrite LL; auto). cbn [bind]. auto.
Qed.
Lemma moved_ok : forall m x', mm_ok m -> labeling g x' -> mm_ok (mkMm (mm_fov m) x' x' (total OP g x')).
Proof. intros m x' O L. split; [apply O|]. auto. Qed.
End M.
