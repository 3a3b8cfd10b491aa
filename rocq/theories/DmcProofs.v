(** Proofs about DMC: the sets and the submodels. *)
From Coq Require Import QArith Qcanon Relations Sorted Permutation.
From Verif Require Import Base Values GmView GmViewSpec ShapeSpec GmViewProofs PartitionModel UnionFind PartitionProofs ConstraintModel DualDecompModel FmProps DmcModel DmcSpec.
From Verif Require AStarSearch HoeProofs.
Open Scope nat_scope.

Lemma foldM_upto : forall (B : Type) (f : B -> nat -> outcome B) (P : nat -> B -> Prop) m s,
  P 0 s -> (forall k t, k < m -> P k t -> exists t', f t k = Ret t' /\ P (S k) t') -> exists t, foldM f (seq 0 m) s = Ret t /\ P m t.
Proof.
  intros B f P m s H0 HS. destruct (AStarSearch.foldM_ind nat B f P (seq 0 m) s H0) as (t & E & H).
  - intros k a t Hk HP. assert (L : k < m) by (assert (X : nth_error (seq 0 m) k <> None) by congruence; apply nth_error_Some in X; rewrite seq_length in X; exact X).
    rewrite nth_error_seq in Hk by exact L. injection Hk as <-. exact (HS k t L HP).
  - rewrite seq_length in H. eauto.
Qed.
Lemma len_upd : forall (A : Type) (l : list A) i v, length (upd l i v) = length l.
Proof. induction l as [|h l IH]; intros [|i] v; cbn; auto. Qed.

Section Dmc.
Variable gm : gmv Qc.
Variable threshold : Qc.
Hypothesis MC : multicut gm.
Notation n := (length (v_labels gm)).
Notation F := (length (v_factors gm)).
Definition dflt : list nat * (list nat -> Qc) := ([], fun _ => 0%Qc).
Definition fac (f : nat) : list nat * (list nat -> Qc) := nth f (v_factors gm) dflt.
Definition ia (f : nat) : nat := nth 0 (fst (fac f)) 0.
Definition ja (f : nat) : nat := nth 1 (fst (fac f)) 0.
Definition wt (f : nat) : Qc := cut_weight (fac f).

Lemma fac_rd : forall f, f < F -> rd (v_factors gm) f = Ret (fac f).
Proof. intros f H. apply rd_nth. exact H. Qed.
Lemma fac_ok : forall f, f < F -> fst (fac f) = [ia f; ja f] /\ ia f < ja f < n /\ exists a b, forall l0 l1, snd (fac f) [l0; l1] = if l0 =? l1 then a else b.
Proof.
  intros f H. destruct MC as [_ M]. rewrite Forall_forall in M. destruct (M (fac f)) as (i & j & a & b & E & L & V); [apply nth_In; exact H|].
  unfold ia, ja. rewrite E. cbn [nth]. split; [reflexivity|]. split; [exact L|]. eauto.
Qed.
Lemma nth_const : forall (A : Type) (c d : A) k v, v < k -> nth v (repeat c k) d = c.
Proof. intros A c d. induction k as [|k IH]; intros [|v] H; cbn; try lia; auto. apply IH. lia. Qed.
Lemma label_at : forall v, v < n -> nth v (v_labels gm) 0 = n.
Proof. intros v H. destruct MC as [M _]. rewrite M at 1. apply nth_const. exact H. Qed.
Lemma weight_ok : forall f, f < F -> dm_weight gm (fac f) = Ret (wt f).
Proof.
  intros f H. destruct (fac_ok f H) as (E & L & _). unfold dm_weight, dm_at. rewrite E. cbn [mapM]. rewrite !(rd_nth _ (v_labels gm) _ 0) by lia. rewrite !label_at by lia. cbn [bind combine forallb fst snd].
  destruct (Nat.ltb_spec 0 n) as [_|X]; [|lia]. destruct (Nat.ltb_spec 1 n) as [_|X]; [|lia]. reflexivity.
Qed.
Lemma rd_vars : forall f, f < F -> rd (fst (fac f)) 0 = Ret (ia f) /\ rd (fst (fac f)) 1 = Ret (ja f).
Proof. intros f H. destruct (fac_ok f H) as (E & _). rewrite E. split; reflexivity. Qed.

(** The merged pairs *)
Definition joined (m : nat) (pairs : list (nat * nat)) : Prop := forall a b, In (a, b) pairs <-> exists f, f < m /\ (threshold < wt f)%Qc /\ a = ia f /\ b = ja f.
Lemma decompose_ok : exists p pairs, dm_decompose gm threshold = Ret p /\ PInv p n pairs /\ joined F pairs.
Proof.
  unfold dm_decompose. destruct (foldM_upto _ (fun ufd fi => fc <- rd (v_factors gm) fi ;;
    if length (fst fc) =? 2 then weight <- dm_weight gm fc ;; if Qc_lt threshold weight then vi0 <- rd (fst fc) 0 ;; vi1 <- rd (fst fc) 1 ;; part_merge ufd vi0 vi1 else Ret ufd else Throw)
    (fun m p => exists pairs, PInv p n pairs /\ joined m pairs) F (part_init n)) as (p & E & pairs & I & J).
  - exists []. split; [apply PInv_init|]. intros a b. split; [intros []|]. intros (f & H & _). lia.
  - intros k p H (pairs & I & J). unfold joined in *. rewrite fac_rd by exact H. cbn [bind]. destruct (fac_ok k H) as (EV & L & _). destruct (rd_vars k H) as [R0 R1].
    replace (length (fst (fac k)) =? 2) with true by (rewrite EV; reflexivity). rewrite weight_ok by exact H. cbn [bind]. unfold Qc_lt. destruct (Qclt_le_dec threshold (wt k)) as [Q|Q].
    + rewrite R0, R1. cbn [bind]. destruct (PInv_merge p n pairs (ia k) (ja k) I) as (p' & E & I'); [lia|lia|]. exists p'. split; [exact E|]. exists ((ia k, ja k) :: pairs). split; [exact I'|].
      intros a b. cbn [In]. rewrite J. split.
      * intros [X|(f & X & Y)]; [injection X as <- <-; exists k; auto|]. exists f. split; [lia|exact Y].
      * intros (f & X & Y & -> & ->). destruct (Nat.eq_dec f k) as [->|NE]; [left; reflexivity|]. right. exists f. split; [lia|auto].
    + exists p. split; [reflexivity|]. exists pairs. split; [exact I|]. intros a b. rewrite J. split; intros (f & X & Y & Z); exists f; (split; [|auto]); [lia|].
      destruct (Nat.eq_dec f k) as [->|NE]; [|lia]. exfalso. exact (Qcle_not_lt _ _ Q Y).
  - exists p, pairs. auto.
Qed.

(** The sets *)
Variables (p : partition) (pairs : list (nat * nat)) (repr : list (nat * nat)).
Hypothesis PI : PInv p n pairs.
Hypothesis JO : joined F pairs.
Hypothesis RL : part_representativeLabeling p = Ret repr.
Notation K := (numberOfSets p).
Definition rt (v : nat) : nat := match part_find_const p v with Ret r => r | _ => 0 end.
Definition comp (v : nat) : nat := map_at repr (rt v).
Definition cls (k : nat) : list nat := filter (fun v => comp v =? k) (seq 0 n).
Lemma rt_ok : forall v, v < n -> Root (parents p) v (rt v).
Proof. intros v H. destruct (PInv_find_const p n pairs v PI H) as (r & E & R). unfold rt. rewrite E. exact R. Qed.
Lemma comp_ok : forall v, v < n -> nth_error (roots (parents p)) (comp v) = Some (rt v).
Proof.
  intros v H. destruct (part_representativeLabeling_spec p n pairs PI) as (m & E & M & _). rewrite RL in E. injection E as <-.
  assert (I : In (rt v) (roots (parents p))) by (apply roots_In; eapply Root_self; apply rt_ok; exact H). apply In_nth_error in I. destruct I as [j J]. unfold comp. rewrite (M j _ J). exact J.
Qed.
Lemma comp_lt : forall v, v < n -> comp v < K.
Proof. intros v H. rewrite (pi_sets _ _ _ PI). apply nth_error_Some. rewrite comp_ok by exact H. discriminate. Qed.
Lemma comp_rt : forall v w, v < n -> w < n -> (comp v = comp w <-> rt v = rt w).
Proof. intros v w H1 H2. split; [|unfold comp; congruence]. intros E. pose proof (comp_ok v H1) as A. pose proof (comp_ok w H2) as B. rewrite E in A. congruence. Qed.
Lemma comp_conn : forall v w, v < n -> w < n -> (comp v = comp w <-> connected pairs v w).
Proof. intros v w H1 H2. rewrite comp_rt by assumption. apply (pi_agrees _ _ _ PI); apply rt_ok; assumption. Qed.
Lemma heavy_same : forall f, f < F -> (threshold < wt f)%Qc -> comp (ia f) = comp (ja f).
Proof. intros f H Q. destruct (fac_ok f H) as (_ & L & _). apply comp_conn; [lia|lia|]. apply rst_step. apply JO. exists f. auto. Qed.
(** In a set with the elements [a] and [b] only, a factor beyond the threshold joins them. *)
Lemma pair_joined : forall a b, a < b < n -> comp a = comp b -> (forall v, v < n -> comp v = comp a -> v = a \/ v = b) -> exists f, f < F /\ (threshold < wt f)%Qc /\ ia f = a /\ ja f = b.
Proof.
  intros a b L E H. apply comp_conn in E; [|lia|lia]. apply clos_rst_rst1n in E. inversion E as [|y z S1 S2]; [lia|]. subst. pose proof JO as JJ. unfold joined in JJ. assert (Y : y < n /\ y <> a).
  { destruct S1 as [S1|S1]; apply JJ in S1; destruct S1 as (f & X & _ & Y1 & Y2); destruct (fac_ok f X) as (_ & Z & _); lia. }
  assert (EC : comp y = comp a). { apply comp_conn; [lia|lia|]. destruct S1 as [S1|S1]; [apply rst_sym, rst_step; exact S1|apply rst_step; exact S1]. }
  destruct (H y (proj1 Y) EC) as [?|Yb]; [lia|]. destruct S1 as [S1|S1]; apply JJ in S1; destruct S1 as (f & X & Q & A & B); destruct (fac_ok f X) as (_ & Z & _); [|lia]. exists f. split; [exact X|]. split; [exact Q|]. split; congruence.
Qed.
(** find on a partition with the same sets *)
Definition alike (q : partition) : Prop := PInv q n pairs /\ forall z s, Root (parents q) z s <-> Root (parents p) z s.
Lemma alike_p : alike p. Proof. split; [exact PI|reflexivity]. Qed.
Lemma find_alike : forall q v, alike q -> v < n -> exists q', part_find q v = Ret (q', rt v) /\ alike q'.
Proof.
  intros q v [Q1 Q2] H. destruct (PInv_find q n pairs v Q1 H) as (q' & r & E & I & R & _ & S). exists q'. rewrite (Root_det _ _ _ _ (proj1 (Q2 v r) R) (rt_ok v H)) in E. split; [exact E|]. split; [exact I|].
  intros z s. rewrite S. apply Q2.
Qed.
Lemma filter_seq_S : forall (f : nat -> bool) m, filter f (seq 0 (S m)) = filter f (seq 0 m) ++ (if f m then [m] else []).
Proof. intros f m. rewrite seq_S, filter_app. cbn [filter Nat.add]. reflexivity. Qed.
Lemma subVar_ok : exists q, dm_subVar gm p repr = Ret (q, map cls (seq 0 K)) /\ alike q.
Proof.
  unfold dm_subVar. destruct (foldM_upto _ (fun '(ufd, subVar) vi => ' (ufd, r) <- part_find ufd vi ;; let k := map_at repr r in l <- rd subVar k ;; subVar <- wr subVar k (l ++ [vi]) ;; Ret (ufd, subVar))
    (fun m st => alike (fst st) /\ length (snd st) = K /\ forall k, k < K -> nth k (snd st) [] = filter (fun v => comp v =? k) (seq 0 m)) n (p, repeat [] K)) as ([q sv] & E & A & LN & H).
  - cbn [fst snd]. split; [apply alike_p|]. split; [apply repeat_length|]. intros k H. apply nth_const. exact H.
  - intros v [q sv] H (A & LN & I). cbn [fst snd] in *. destruct (find_alike q v A H) as (q' & E & A'). rewrite E. cbn [bind]. change (map_at repr (rt v)) with (comp v). pose proof (comp_lt v H) as C.
    cbv zeta. rewrite (rd_nth _ sv _ []) by lia. cbn [bind]. rewrite wr_Ret by lia. cbn [bind]. eexists. split; [reflexivity|]. cbn [fst snd]. split; [exact A'|]. split; [rewrite len_upd; exact LN|].
    intros k Hk. rewrite filter_seq_S. destruct (Nat.eqb_spec (comp v) k) as [<-|NE]; [rewrite nth_upd_eq by lia; rewrite I by exact Hk; reflexivity|]. rewrite nth_upd_neq by exact NE. rewrite app_nil_r. apply I. exact Hk.
  - exists q. split; [|exact A]. etransitivity; [exact E|]. f_equal. f_equal. cbn [snd] in *. apply (nth_ext _ _ [] []); [rewrite map_length, seq_length; exact LN|]. intros k Hk. rewrite LN in Hk. rewrite H by exact Hk.
    rewrite (nth_indep _ [] (cls 0)) by (rewrite map_length, seq_length; exact Hk). rewrite map_nth, seq_nth by exact Hk. reflexivity.
Qed.
Definition cross (f : nat) : bool := negb (comp (ia f) =? comp (ja f)).
Lemma mark_ok : forall q, alike q -> exists q' used, dm_mark gm q = Ret (q', used) /\ length used = F /\ forall f, f < F -> nth f used false = cross f.
Proof.
  intros q A. unfold dm_mark. destruct (foldM_upto _ (fun '(ufd, used) fi => fc <- rd (v_factors gm) fi ;; vi0 <- rd (fst fc) 0 ;; vi1 <- rd (fst fc) 1 ;;
    ' (ufd, r0) <- part_find ufd vi0 ;; ' (ufd, r1) <- part_find ufd vi1 ;; used <- (if negb (r0 =? r1) then wr used fi true else Ret used) ;; Ret (ufd, used))
    (fun m st => alike (fst st) /\ length (snd st) = F /\ forall f, f < F -> nth f (snd st) false = (f <? m) && cross f) F (q, repeat false F)) as ([q' used] & E & A' & LN & H).
  - cbn [fst snd]. split; [exact A|]. split; [apply repeat_length|]. intros f H. cbn. apply nth_const. exact H.
  - intros k [q1 used] H (A1 & LN & I). cbn [fst snd] in *. rewrite fac_rd by exact H. cbn [bind]. destruct (fac_ok k H) as (_ & L & _). destruct (rd_vars k H) as [R0 R1]. rewrite R0, R1. cbn [bind].
    destruct (find_alike q1 (ia k) A1) as (q2 & E2 & A2); [lia|]. rewrite E2. cbn [bind]. destruct (find_alike q2 (ja k) A2) as (q3 & E3 & A3); [lia|]. rewrite E3. cbn [bind].
    assert (X : (rt (ia k) =? rt (ja k)) = (comp (ia k) =? comp (ja k))).
    { destruct (Nat.eqb_spec (comp (ia k)) (comp (ja k))) as [Y|Y]; [apply Nat.eqb_eq; apply comp_rt; [lia|lia|exact Y]|]. apply Nat.eqb_neq. intros Z. apply Y. apply comp_rt; [lia|lia|exact Z]. }
    rewrite X. change (negb (comp (ia k) =? comp (ja k))) with (cross k).
    exists (q3, if cross k then upd used k true else used). split; [destruct (cross k); [rewrite wr_Ret by lia|]; reflexivity|]. cbn [fst snd]. split; [exact A3|]. split; [destruct (cross k); [rewrite len_upd|]; exact LN|].
    intros f Hf. destruct (Nat.eq_dec f k) as [->|NE].
    + destruct (Nat.ltb_spec k (S k)) as [_|Y]; [|lia]. cbn [andb]. destruct (cross k) eqn:C; [apply nth_upd_eq; lia|]. rewrite I by exact Hf. rewrite C. apply andb_false_r.
    + replace (f <? S k) with (f <? k) by (destruct (Nat.ltb_spec f k), (Nat.ltb_spec f (S k)); lia || reflexivity). destruct (cross k); [rewrite nth_upd_neq by congruence|]; apply I; exact Hf.
  - exists q', used. split; [exact E|]. split; [exact LN|]. intros f Hf. cbn [snd] in H. rewrite H by exact Hf. destruct (Nat.ltb_spec f F); [reflexivity|lia].
Qed.
End Dmc.
