(** Proofs about PmModel.v: the initial partition. *)
From Coq Require Import QArith Qcanon Permutation Relations.
From Verif Require Import Base Values GmView GmViewSpec ConstraintModel DualDecompModel DualDecompProofs HoeProofs AStarSearch PmModel PmSpec PmProofs PmRun.
Import DualDecompProofs.
Open Scope nat_scope.
Section Init.
Variable gm : gmv Qc.
Notation n := (length (v_labels gm)).
Variable G : graph.
Variable es : list (nat * nat * nat).
Hypothesis GO : graph_ok gm G es.
Notation nb := (nb es). Notation wt := (wt G).
Definition pos (u v : nat) : Prop := exists e, In (v, e) (nb u) /\ (0 < wt e)%Qc.
Lemma pos_sym : forall u v, pos u v -> pos v u.
Proof. intros u v (e & I & H). exists e. split; [apply (nb_sym gm G es GO); exact I|exact H]. Qed.
Definition conn : nat -> nat -> Prop := clos_refl_trans nat pos.
Lemma conn_sym : forall u v, conn u v -> conn v u.
Proof. intros u v H. induction H as [u v H|u|u v w H1 IH1 H2 IH2]; [apply rt_step, pos_sym; exact H|apply rt_refl|eapply rt_trans; eassumption]. Qed.
Definition free (a : list bool) : nat := length (filter negb a).
Lemma free_upd : forall a v, v < length a -> nth v a false = false -> S (free (upd a v true)) = free a.
Proof.
  unfold free. induction a as [|b a IH]; intros v L F; cbn in L; [lia|]. destruct v as [|v]; cbn in F |- *; [subst b; reflexivity|]. destruct b; cbn; rewrite <- (IH v) by (try lia; exact F); reflexivity.
Qed.
(** The state: [x] is the variable whose neighbours are looked at (those still to come: [m]). *)
Record FI (p : nat) (q : list nat) (pend : nat -> nat -> Prop) (st : list nat) (a : list bool) : Prop := {
  fi_st : length st = n; fi_a : length a = n;
  fi_q : forall u, In u q -> u < n /\ nth u a false = true /\ nth u st 0 = p;
  fi_le : forall u, u < n -> nth u a false = true -> nth u st 0 <= p;
  fi_lt : forall u, u < n -> nth u st 0 <= p;
  fi_closed : forall u w, u < n -> nth u a false = true -> pos u w -> (nth w a false = true /\ nth w st 0 = nth u st 0) \/ In u q \/ pend u w;
  fi_conn : forall u w, u < n -> w < n -> nth u a false = true -> nth w a false = true -> nth u st 0 = nth w st 0 -> conn u w }.
Lemma visit_ok : forall p x m q st a, x < n -> nth x a false = true -> nth x st 0 = p -> (forall u e, In (u, e) m -> In (u, e) (nb x)) ->
  FI p q (fun u w => u = x /\ exists e, In (w, e) m /\ (0 < wt e)%Qc) st a ->
  exists q' st' a', foldM (pm_visit G p) m (q, st, a) = Ret (q', st', a') /\ FI p q' (fun _ _ => False) st' a' /\ length q' + free a' = length q + free a /\
    (forall u, u < n -> nth u a false = true -> nth u a' false = true).
Proof.
  intros p x m. induction m as [|[w e] m IH]; intros q st a Hx AX SX HM F; cbn [foldM].
  { exists q, st, a. split; [reflexivity|]. split; [|auto]. destruct F as [F1 F2 F3 F4 F4' F5 F6]. constructor; auto. intros u w Hu Au P. destruct (F5 u w Hu Au P) as [H|[H|(-> & e & [] & _)]]; auto. }
  pose proof (HM w e (or_introl eq_refl)) as I. pose proof (nb_ok gm G es GO x w e I) as (WX & Lw & Le). destruct F as [F1 F2 F3 F4 F4' F5 F6]. unfold pm_visit at 1. rewrite (rd_nth _ a w false) by lia. cbn [bind]. rewrite (rd_nth _ _ e 0%Qc) by exact Le. cbn [bind]. change (nth e (edgeWeight G) 0%Qc) with (wt e).
  assert (HM' : forall u e, In (u, e) m -> In (u, e) (nb x)) by (intros; apply HM; right; assumption).
  destruct (negb (nth w a false) && Qc_lt 0 (wt e)) eqn:C.
  - apply andb_true_iff in C. destruct C as [C1 C2]. apply negb_true_iff in C1. apply Qc_lt_true in C2. rewrite !wr_Ret by lia. cbn [bind].
    assert (CX : conn x w) by (apply rt_step; exists e; auto).
    destruct (IH (q ++ [w]) (upd st w p) (upd a w true) Hx) as (q' & st' & a' & E & P1 & P2 & P3); [rewrite nth_upd_neq by auto; exact AX|rewrite nth_upd_neq by auto; exact SX|exact HM'| |].
    + constructor; [rewrite length_upd; exact F1|rewrite length_upd; exact F2| | | | |].
      * intros u J. apply in_app_or in J. destruct (Nat.eq_dec u w) as [->|NE]; [rewrite !nth_upd_eq by lia; auto|]. rewrite !nth_upd_neq by auto. destruct J as [J|[J|[]]]; [apply F3; exact J|congruence].
      * intros u Hu. destruct (Nat.eq_dec u w) as [->|NE]; [rewrite !nth_upd_eq by lia; lia|]. rewrite !nth_upd_neq by auto. apply F4. exact Hu.
      * intros u Hu. destruct (Nat.eq_dec u w) as [->|NE]; [rewrite !nth_upd_eq by lia; lia|]. rewrite !nth_upd_neq by auto. apply F4'. exact Hu.
      * intros u y Hu Au P. destruct (Nat.eq_dec u w) as [->|NE]; [right; left; apply in_or_app; right; left; reflexivity|]. rewrite nth_upd_neq in Au by auto. rewrite (nth_upd_neq _ st w u) by auto.
        destruct (F5 u y Hu Au P) as [[H1 H2]|[H|(-> & d & H & Hd)]].
        -- assert (y <> w) by congruence. rewrite !nth_upd_neq by auto. auto.
        -- right. left. apply in_or_app. left. exact H.
        -- destruct H as [H|H]; [inversion H; subst; left; rewrite !nth_upd_eq by lia; auto|]. right. right. split; [reflexivity|]. eauto.
      * intros u y Hu Hy Au Ay S. destruct (Nat.eq_dec u w) as [->|Nu], (Nat.eq_dec y w) as [->|Ny].
        -- apply rt_refl.
        -- rewrite nth_upd_neq in Ay by auto. rewrite nth_upd_eq, nth_upd_neq in S by (auto || lia). eapply rt_trans; [apply conn_sym; exact CX|]. apply F6; auto. congruence.
        -- rewrite nth_upd_neq in Au by auto. rewrite nth_upd_neq, nth_upd_eq in S by (auto || lia). eapply rt_trans; [|exact CX]. apply F6; auto. congruence.
        -- rewrite nth_upd_neq in Au by auto. rewrite nth_upd_neq in Ay by auto. rewrite !nth_upd_neq in S by auto. apply F6; assumption.
    + exists q', st', a'. split; [exact E|]. split; [exact P1|]. split.
      * rewrite P2, app_length. cbn [length]. pose proof (free_upd a w ltac:(lia) C1). lia.
      * intros u Hu Au. apply P3; [exact Hu|]. destruct (Nat.eq_dec u w) as [->|NE]; [apply nth_upd_eq; lia|rewrite nth_upd_neq by auto; exact Au].
  - apply IH; auto. constructor; auto. intros u y Hu Au P. destruct (F5 u y Hu Au P) as [H|[H|(-> & d & H & Hd)]]; auto. destruct H as [H|H]; [|right; right; split; [reflexivity|]; eauto]. inversion H; subst w e.
    apply andb_false_iff in C. destruct C as [C|C]; [apply negb_false_iff in C|apply Qc_lt_false in C; exfalso; exact (Qcle_not_lt _ _ C Hd)].
    destruct (Nat.eq_dec (nth y st 0) (nth x st 0)) as [S|S]; [left; auto|]. exfalso.
    (* y was assigned before: then x was closed over *)
    assert (PY : pos y x) by (apply pos_sym; exact P). destruct (F5 y x Lw C PY) as [[_ X]|[X|(X & _)]]; [congruence| |congruence]. apply F3 in X. destruct X as (_ & _ & X). congruence.
Qed.
Lemma flood_ok : forall fuel p q st a, length q + free a <= fuel -> FI p q (fun _ _ => False) st a ->
  exists st' a', pm_flood G fuel p q st a = Ret (st', a') /\ FI p [] (fun _ _ => False) st' a' /\ (forall u, u < n -> nth u a false = true -> nth u a' false = true).
Proof.
  induction fuel as [|fuel IH]; intros p q st a LE F; (destruct q as [|x q]; [exists st, a; split; [reflexivity|]; split; [exact F|auto]|]); [cbn in LE; lia|]. cbn [pm_flood].
  destruct F as [F1 F2 F3 F4 F4' F5 F6]. destruct (F3 x (or_introl eq_refl)) as (Hx & AX & SX). rewrite (rd_nb gm G es GO x Hx). cbn [bind].
  destruct (visit_ok p x (nb x) q st a Hx AX SX (fun u e I => I)) as (q' & st' & a' & E & P1 & P2 & P3).
  - constructor; auto. + intros u I. apply F3. right. exact I. + intros u w Hu Au P. destruct (F5 u w Hu Au P) as [H|[[<-|H]|[]]]; auto.
  - rewrite E. cbn [bind]. cbn [length] in LE. destruct (IH p q' st' a' ltac:(lia) P1) as (st2 & a2 & E2 & Q1 & Q2). exists st2, a2. split; [exact E2|]. split; [exact Q1|]. intros u Hu Au. apply Q2; [exact Hu|]. apply P3; assumption.
Qed.
(** After the constructor: the labels are those of the components. *)
Lemma initial_ok : exists st, pm_initial gm G = Ret st /\ length st = n /\ (forall v, v < n -> nth v st 0 < n) /\ forall u v, u < n -> v < n -> (nth u st 0 = nth v st 0 <-> conn u v).
Proof.
  unfold pm_initial.
  destruct (foldM_ind nat (list nat * list bool * nat) (fun '(states, assigned, p) node =>
    a <- rd assigned node ;; if a : bool then Ret (states, assigned, p) else
      states <- wr states node p ;; assigned <- wr assigned node true ;; ' (states, assigned) <- pm_flood G (S n) p [node] states assigned ;; Ret (states, assigned, S p))
    (fun k '(st, a, p) => length st = n /\ length a = n /\ p <= k /\ (forall u, u < k -> nth u a false = true) /\ (forall u, u < n -> nth u a false = true -> nth u st 0 < p) /\ (forall u, u < n -> nth u st 0 <= p - 1) /\
       (forall u w, u < n -> nth u a false = true -> pos u w -> nth w a false = true /\ nth w st 0 = nth u st 0) /\
       (forall u w, u < n -> w < n -> nth u a false = true -> nth w a false = true -> nth u st 0 = nth w st 0 -> conn u w))
    (seq 0 n) (repeat 0 n, repeat false n, 0)) as ([[st a] p] & E & P).
  - split; [apply repeat_length|]. split; [apply repeat_length|]. split; [lia|]. split; [intros; lia|]. split; [intros u Hu A; rewrite nth_repeat in A; discriminate|]. split; [intros u Hu; rewrite nth_repeat; lia|]. split; intros u w Hu; rewrite !nth_repeat; discriminate.
  - intros k v [[st a] p] Ek (L1 & L2 & L3 & L4 & L5 & L5' & L6 & L7). assert (v = k /\ k < n) as [-> Hk]. { assert (k < n) by (rewrite <- (seq_length n 0); apply nth_error_Some; congruence). split; [|assumption]. rewrite (nth_error_nth' _ 0) in Ek by (rewrite seq_length; assumption). injection Ek as <-. rewrite seq_nth by assumption. reflexivity. }
    rewrite (rd_nth _ a k false) by lia. cbn [bind]. destruct (nth k a false) eqn:A.
    + eexists. split; [reflexivity|]. split; [exact L1|]. split; [exact L2|]. split; [lia|]. split; [intros u Hu; destruct (Nat.eq_dec u k) as [->|]; [exact A|apply L4; lia]|]. auto.
    + rewrite !wr_Ret by lia. cbn [bind].
      destruct (flood_ok (S n) p [k] (upd st k p) (upd a k true)) as (st' & a' & E' & F & MO).
      * cbn [length]. pose proof (free_upd a k ltac:(lia) A) as X. assert (free a <= n) by (unfold free; rewrite <- L2; clear; induction a as [|b a IH]; cbn; [lia|destruct b; cbn; lia]). lia.
      * assert (SK : forall u, u < n -> nth u a false = true -> u <> k) by congruence. constructor; [rewrite length_upd; exact L1|rewrite length_upd; exact L2| | | | |].
        -- intros u [<-|[]]. rewrite !nth_upd_eq by lia. auto.
        -- intros u Hu. destruct (Nat.eq_dec u k) as [->|NE]; [rewrite !nth_upd_eq by lia; lia|]. rewrite !nth_upd_neq by auto. intros Au. specialize (L5 u Hu Au). lia.
        -- intros u Hu. destruct (Nat.eq_dec u k) as [->|NE]; [rewrite !nth_upd_eq by lia; lia|]. rewrite !nth_upd_neq by auto. specialize (L5' u Hu). lia.
        -- intros u w Hu Au P. destruct (Nat.eq_dec u k) as [->|NE]; [right; left; left; reflexivity|]. rewrite nth_upd_neq in Au by auto. destruct (L6 u w Hu Au P) as [H1 H2]. left. assert (w <> k) by congruence. rewrite !nth_upd_neq by auto. auto.
        -- intros u w Hu Hw Au Aw S. destruct (Nat.eq_dec u k) as [->|Nu], (Nat.eq_dec w k) as [->|Nw]; [apply rt_refl| | |].
           ++ rewrite nth_upd_neq in Aw by auto. rewrite nth_upd_eq, nth_upd_neq in S by (auto || lia). specialize (L5 w Hw Aw). lia.
           ++ rewrite nth_upd_neq in Au by auto. rewrite nth_upd_neq, nth_upd_eq in S by (auto || lia). specialize (L5 u Hu Au). lia.
           ++ rewrite nth_upd_neq in Au by auto. rewrite nth_upd_neq in Aw by auto. rewrite !nth_upd_neq in S by auto. apply L7; assumption.
      * rewrite E'. cbn [bind]. eexists. split; [reflexivity|]. destruct F as [F1 F2 F3 F4 F4' F5 F6]. split; [exact F1|]. split; [exact F2|]. split; [lia|].
        split. { intros u Hu. apply MO; [lia|]. destruct (Nat.eq_dec u k) as [->|]; [apply nth_upd_eq; lia|]. rewrite nth_upd_neq by auto. apply L4. lia. }
        split; [intros u Hu Au; specialize (F4 u Hu Au); lia|]. split; [intros u Hu; specialize (F4' u Hu); lia|]. split; [|exact F6]. intros u w Hu Au P. destruct (F5 u w Hu Au P) as [H|[[]|[]]]. exact H.
  - rewrite seq_length in P. destruct P as (L1 & L2 & L3 & L4 & L5 & L5' & L6 & L7). unfold pm_initial in E. rewrite E. cbn [bind]. exists st. split; [reflexivity|]. split; [exact L1|].
    split; [intros v Hv; specialize (L5 v Hv (L4 v Hv)); lia|]. intros u v Hu Hv. split; [apply L7; auto|]. intros C. assert (X : v < n -> u < n -> nth v st 0 = nth u st 0); [|symmetry; apply X; assumption]. clear Hu Hv.
    assert (PN : forall a b, pos a b -> b < n) by (intros x b (e & I & _); apply (nb_ok gm G es GO) in I; tauto).
    apply clos_rt_rt1n in C. induction C as [u|u w v H C IH]; [reflexivity|]. intros Hv Hu. pose proof (PN u w H) as Hw. rewrite (IH Hv Hw). apply L6; auto.
Qed.
End Init.
