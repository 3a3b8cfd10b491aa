(** Proofs about Swendsen-Wang sampling: clusters and steps. *)
From Coq Require Import QArith Qcanon Sorting.Sorted Relations Permutation.
From Verif Require MpState.
From Verif Require Import Base Values GmView GmViewSpec GmViewProofs ShapeSpec ShapeProofs MovemakerModel MovemakerSpec MovemakerProofs IcmModel IcmProofs UnionFind PartitionModel PartitionProofs ConstraintModel HoeProofs TentacleSim DmcProofs GibbsModel GibbsProofs GgSpec GgProofs SwModel SwSpec SwEdge.
Open Scope nat_scope.

Lemma Qc_lt_true : forall a b, Qc_lt a b = true <-> (a < b)%Qc.
Proof. intros a b. unfold Qc_lt. destruct (Qclt_le_dec a b) as [H|H]; split; auto; [discriminate|]. intros X. exfalso. exact (Qcle_not_lt _ _ H X). Qed.
Lemma qprod_cons : forall q l, qprod (q :: l) = (q * qprod l)%Qc.
Proof. reflexivity. Qed.
Lemma qprod_nil : qprod [] = 1%Qc.
Proof. reflexivity. Qed.
Lemma qprod_app : forall a b, qprod (a ++ b) = (qprod a * qprod b)%Qc.
Proof. induction a as [|x a IH]; intros b; cbn [app]; [rewrite qprod_nil; ring|]. rewrite !qprod_cons, IH. ring. Qed.
Lemma qprod_perm : forall a b, Permutation a b -> qprod a = qprod b.
Proof. intros a b P. induction P; rewrite ?qprod_cons; auto; [rewrite IHP; auto|ring|congruence]. Qed.
Lemma qprod_ones : forall l, (forall q, In q l -> q = 1%Qc) -> qprod l = 1%Qc.
Proof. induction l as [|a l IH]; intros H; auto. rewrite qprod_cons, (H a) by (left; auto). rewrite IH by (intros; apply H; right; auto). ring. Qed.
Lemma filter_perm : forall (A : Type) (f : A -> bool) l, Permutation l (filter f l ++ filter (fun x => negb (f x)) l).
Proof.
  intros A f. induction l as [|a l IH]; auto. cbn. destruct (f a); cbn; [constructor; auto|]. apply Permutation_cons_app. auto.
Qed.
Lemma qprod_sub : forall (f : nat -> Qc) l m, NoDup l -> NoDup m -> incl m l -> (forall w, In w l -> ~ In w m -> f w = 1%Qc) -> qprod (map f l) = qprod (map f m).
Proof.
  intros f l m NL NM I H. rewrite (qprod_perm _ _ (Permutation_map f (filter_perm _ (fun w => member w m) l))). rewrite map_app, qprod_app.
  rewrite (qprod_ones (map f (filter (fun x => negb (member x m)) l))).
  - rewrite Qcmult_1_r. apply qprod_perm. apply Permutation_map. apply NoDup_Permutation; auto. { apply NoDup_filter; auto. }
    intros w. rewrite filter_In, member_In. split; [tauto|]. auto.
  - intros q Hq. apply in_map_iff in Hq. destruct Hq as (w & <- & Hw). apply filter_In in Hw. destruct Hw as [Hw N]. apply H; auto. intros X. apply member_In in X. rewrite X in N. discriminate.
Qed.
Lemma NoDup_bound : forall n (l : list nat), NoDup l -> Forall (fun w => w < n) l -> length l <= n.
Proof. intros n l ND F. rewrite <- (seq_length n 0). apply NoDup_incl_length; auto. intros w Hw. rewrite Forall_forall in F. apply in_seq. specialize (F w Hw). lia. Qed.

Lemma NoDup_app_remove_r : forall (A : Type) (a b : list A), NoDup (a ++ b) -> NoDup a.
Proof. induction a as [|x a IH]; intros b H; constructor; inversion H; subst; [intros X; apply H2; apply in_or_app; auto|eauto]. Qed.
Lemma NoDup_app_remove_l : forall (A : Type) (a b : list A), NoDup (a ++ b) -> NoDup b.
Proof. induction a as [|x a IH]; intros b H; auto. inversion H; subst; auto. Qed.

Section Proofs.
Variable T : Type.
Variable OP : oper T.
Variable mult : bool.
Variable ACC : accum T.
Variable fin : T -> Prop.
Hypothesis OL : op_laws fin OP.
Hypothesis AL : acc_laws fin OP ACC.
Variable prob : T -> Qc.
Hypothesis PN : forall t, (0 <= prob t)%Qc.
Variable g : gmv T.
Hypothesis W : wf_gmv g.
Hypothesis FG : fin_gmv fin g.
Notation n := (length (v_labels g)).
Hypothesis NV : 0 < n.
Variable par : swpar.
Variable dr : swdraws.
Hypothesis DR : draws_ok dr.

Definition swok (s : sw T) : Prop := mm_ok T OP g (sw_mm s) /\ adj_ok T g (sw_adj s) /\ ep_ok T OP prob g par (sw_adj s) (sw_ep s) /\ labeling g (sw_best s).

Section State.
Variable s : sw T.
Hypothesis SO : swok s.
Notation adj := (sw_adj s).
Notation ep := (sw_ep s).
Notation x := (mm_state (sw_mm s)).
Variable it : nat.

Lemma x_len : length x = n.
Proof. apply labeling_length. apply SO. Qed.
Lemma adjl : length adj = n.
Proof. apply SO. Qed.
Lemma epl : length ep = n.
Proof. apply SO. Qed.
Lemma rowl : forall u, u < n -> length (nth u ep []) = length (nth u adj []).
Proof. apply SO. Qed.
Definition on (u j v : nat) : Prop := u < v /\ nth u x 0 = nth v x 0 /\ j < length (nth u adj []) /\ at_adj adj u j = v /\ (sd_edge dr it u j < at_ep ep u j)%Qc.
Lemma on_turned : forall u v, u < n -> (turned_on s dr it u v <-> exists j, on u j v).
Proof.
  intros u v Hu. unfold turned_on, on, edge_at. split.
  - intros (A & B & j & q & (C & D) & E). exists j. split; auto. split; auto. assert (Hj : j < length (nth u adj [])) by (apply nth_error_Some; congruence). split; auto.
    unfold at_adj, at_ep. rewrite (nth_error_nth _ _ _ C), (nth_error_nth _ _ _ D). auto.
  - intros (j & A & B & C & D & E). split; auto. split; auto. exists j, (at_ep ep u j). split; auto. split; [rewrite <- D; apply nth_error_nth'; auto|apply nth_error_nth'; rewrite rowl; auto].
Qed.
Lemma turned_lt : forall u v, turned_on s dr it u v -> u < n /\ v < n.
Proof.
  intros u v H. assert (Hu : u < n). { destruct H as (_ & _ & j & q & (C & _) & _). destruct (Nat.lt_ge_cases u n) as [Y|Y]; auto. rewrite nth_overflow in C by (rewrite adjl; auto). destruct j; discriminate. }
  split; auto. apply on_turned in H; auto. destruct H as (j & _ & _ & C & D & _). rewrite <- D. apply (adj_lt_n T g W adj); auto. apply SO.
Qed.
Lemma cluster_ok : forall p0, exists p pairs, sw_cluster T g dr s it p0 = Ret p /\ PInv p n pairs /\ forall a b, In (a, b) pairs <-> turned_on s dr it a b.
Proof.
  intros p0. unfold sw_cluster.
  match goal with |- context [foldM ?f (seq 0 n) ?z] => destruct (foldM_upto _ f (fun u p => exists pairs, PInv p n pairs /\ forall a b, In (a, b) pairs <-> a < u /\ exists j, on a j b) n z) as (p & E & pairs & I & H) end.
  - exists []. split; [apply PInv_init|]. intros a b. split; [intros []|intros [X _]; lia].
  - intros u p Hu (pairs & I & H). cbv beta. rewrite (rd_nth _ adj u []) by (rewrite adjl; auto). cbn [bind].
    match goal with |- context [foldM ?f (seq 0 ?m) p] => destruct (foldM_upto _ f (fun j p => exists pairs, PInv p n pairs /\ forall a b, In (a, b) pairs <-> (a < u /\ exists j, on a j b) \/ (a = u /\ exists j', j' < j /\ on a j' b)) m p) as (p' & E & pairs' & I' & H') end.
    + exists pairs. split; auto. intros a b. rewrite H. split; auto. intros [X|(_ & j' & X & _)]; auto. lia.
    + intros j p1 Hj (pairs1 & I1 & H1). cbv beta. rewrite (rd_nth _ _ j 0) by auto. cbn [bind]. fold (at_adj adj u j). destruct (adj_lt_n T g W adj) with (u := u) (j := j) as (Hv & NB & D); auto. { apply SO. }
      assert (NO : ~ on u j (at_adj adj u j) -> exists p', Ret p1 = Ret p' /\ exists pairs, PInv p' n pairs /\ forall a b, In (a, b) pairs <-> (a < u /\ exists j, on a j b) \/ (a = u /\ exists j', j' < S j /\ on a j' b)).
      { intros N. exists p1. split; auto. exists pairs1. split; auto. intros a b. rewrite H1. split.
        - intros [X|(-> & j' & X & Y)]; auto. right. split; auto. exists j'. split; auto.
        - intros [X|(-> & j' & X & Y)]; auto. right. split; auto. exists j'. split; auto. destruct (Nat.eq_dec j' j) as [->|]; [|lia]. exfalso. apply N. pose proof Y as (_ & _ & _ & Z & _). rewrite Z. auto. }
      destruct (Nat.ltb_spec u (at_adj adj u j)) as [LT|GE]; [|apply NO; intros (X & _); lia]. rewrite !(rd_nth _ x _ 0) by (rewrite x_len; auto). cbn [bind].
      destruct (Nat.eqb_spec (nth u x 0) (nth (at_adj adj u j) x 0)) as [EX|NX]; [|apply NO; intros (_ & X & _); contradiction].
      rewrite (rd_nth _ ep u []) by (rewrite epl; auto). cbn [bind]. rewrite (rd_nth _ _ j 0%Qc) by (rewrite rowl; auto). cbn [bind]. fold (at_ep ep u j).
      destruct (Qc_lt _ _) eqn:EQ; [|apply NO; intros (_ & _ & _ & _ & X); apply Qc_lt_true in X; congruence]. apply Qc_lt_true in EQ.
      destruct (PInv_merge p1 n pairs1 u (at_adj adj u j) I1 Hu Hv) as (p2 & E2 & I2). exists p2. split; auto. exists ((u, at_adj adj u j) :: pairs1). split; auto. intros a b. cbn [In]. rewrite H1. split.
      * intros [X|[X|(-> & j' & X & Y)]]; auto. { injection X as <- <-. right. split; auto. exists j. split; auto. split; auto. } right. split; auto. exists j'. split; auto.
      * intros [X|(-> & j' & X & Y)]; auto. destruct (Nat.eq_dec j' j) as [->|]. { left. pose proof Y as (_ & _ & _ & Z & _). rewrite Z. auto. } right. right. split; auto. exists j'. split; auto. lia.
    + exists p'. split; auto. exists pairs'. split; auto. intros a b. rewrite H'. split.
      * intros [(X & Y)|(-> & j' & X & Y)]; [split; auto; lia|]. split; auto. eauto.
      * intros (X & j & Y). destruct (Nat.eq_dec a u) as [->|]; [|left; split; [lia|eauto]]. right. split; auto. exists j. split; auto. apply Y.
  - exists p, pairs. split; auto. split; auto. intros a b. rewrite H. split.
    + intros (X & Y). apply on_turned; auto.
    + intros X. pose proof (turned_lt _ _ X) as [Y _]. split; auto. apply on_turned; auto.
Qed.
Lemma linked_connected : forall pairs, (forall a b, In (a, b) pairs <-> turned_on s dr it a b) -> forall a b, connected pairs a b <-> linked s dr it a b.
Proof.
  intros pairs H a b. unfold connected, linked. split; intros C; induction C; try (apply rst_refl); try (apply rst_sym; auto; fail); try (eapply rst_trans; eauto; fail); apply rst_step; apply H; auto.
Qed.
(** Linked variables have the same label and the same number of labels. *)
Lemma linked_same : forall a b, linked s dr it a b -> nth a x 0 = nth b x 0 /\ nth a (v_labels g) 0 = nth b (v_labels g) 0.
Proof.
  intros a b L. induction L as [a b H|a|a b L [A B]|a b c L1 [A B] L2 [C D]]; auto; [|split; congruence].
  pose proof (turned_lt _ _ H) as [Ha Hb]. apply on_turned in H; auto. destruct H as (j & _ & X & Hj & E & D). split; auto.
  destruct (ep_facts T OP fin OL prob PN g W FG par adj) with (ep := ep) (u := a) (j := j) as (_ & _ & Z & _); auto; try apply SO. rewrite E in Z.
  destruct (Nat.eq_dec (nth a (v_labels g) 0) (nth b (v_labels g) 0)) as [|NE]; auto. rewrite Z in D by auto. exfalso. apply (Qclt_not_le _ _ D). apply DR.
Qed.

(** The traversal of a cluster *)
Section Collect.
Variable p : partition.
Variable pairs : list (nat * nat).
Hypothesis PI : PInv p n pairs.
Hypothesis PL : forall a b, In (a, b) pairs <-> turned_on s dr it a b.
Variable rep : nat.
Hypothesis RL : rep < n.
Hypothesis RR : nth_error (parents p) rep = Some rep.
Definition r (w : nat) : nat := match part_find_const p w with Ret a => a | _ => 0 end.
Lemma find_r : forall w, w < n -> part_find_const p w = Ret (r w).
Proof. intros w Hw. unfold r. destruct (PInv_find_const _ _ _ w PI Hw) as (a & E & _). rewrite E. auto. Qed.
Lemma r_linked : forall w, w < n -> (r w = rep <-> linked s dr it rep w).
Proof.
  intros w Hw. unfold r. destruct (PInv_find_const _ _ _ w PI Hw) as (a & E & R). rewrite E. rewrite <- (linked_connected pairs PL).
  rewrite <- (pi_agrees _ _ _ PI rep w rep a (Root_of_root _ _ RR) R). split; auto.
Qed.
Lemma linked_lt : forall a b, linked s dr it a b -> a < n -> b < n.
Proof.
  intros a b L. assert (H : a < n <-> b < n). { induction L as [a b H|a|a b L IH|a b c L1 I1 L2 I2]; try tauto. pose proof (turned_lt _ _ H). tauto. } tauto.
Qed.
Definition near (u w : nat) : Prop := In w (nth u adj []).
Lemma near_lt : forall u w, near u w -> u < n /\ w < n.
Proof.
  intros u w H. assert (Hu : u < n). { destruct (Nat.lt_ge_cases u n) as [Y|Y]; auto. unfold near in H. rewrite nth_overflow in H by (rewrite adjl; auto). destruct H. }
  split; auto. destruct (In_nth _ _ 0 H) as (j & Hj & <-). apply (adj_lt_n T g W adj); auto. apply SO.
Qed.
Lemma near_iff : forall u w, near u w <-> u < n /\ neighbours g u w /\ w <> u.
Proof.
  intros u w. destruct SO as (_ & [LA HA] & _). split.
  - intros H. pose proof (near_lt u w H) as [Hu _]. split; auto. apply (HA u (nth u adj [])); auto. apply nth_error_nth'. lia.
  - intros (Hu & H). apply (HA u (nth u adj [])); auto. apply nth_error_nth'. lia.
Qed.
Lemma near_sym : forall u w, near u w -> near w u.
Proof. intros u w H. pose proof (near_lt u w H) as [_ Hw]. apply near_iff in H. destruct H as (_ & (k & fc & A & B & C) & D). apply near_iff. split; auto. split; auto. exists k, fc. auto. Qed.

Definition cinv (visited : list bool) (stack inside around : list nat) : Prop :=
  length visited = n /\ NoDup (inside ++ stack ++ around) /\ (forall w, w < n -> (nth w visited false = true <-> In w (inside ++ stack ++ around))) /\
  (forall w, In w (inside ++ stack) -> w < n /\ r w = rep) /\ (forall w, In w around -> w < n /\ r w <> rep).
(** Neighbours of one variable, of which a part has been treated *)
Lemma neighbours_ok : forall v a visited stack inside around, cinv visited stack inside around -> (forall w, In w a -> w < n) -> (forall w, In w around -> exists u, In u (inside ++ [v]) /\ near u w) -> (forall w, In w a -> near v w) ->
  exists visited' stack' around', sw_neighbours T s p rep a (visited, stack, around) = Ret (visited', stack', around') /\ cinv visited' stack' inside around' /\
  (forall w, In w around' -> exists u, In u (inside ++ [v]) /\ near u w) /\ (forall w, In w stack -> In w stack') /\ (forall w, In w (stack ++ around) -> In w (stack' ++ around')) /\ (forall w, In w a -> In w (inside ++ stack' ++ around')).
Proof.
  intros v a. induction a as [|w a IH]; intros visited stack inside around I HA AR NA; unfold sw_neighbours; cbn [foldM].
  - exists visited, stack, around. split; auto. split; auto. split; auto. split; auto. split; auto. intros w [].
  - pose proof I as (LV & ND & VI & IN & OUT). assert (Hw : w < n) by (apply HA; left; auto). rewrite (rd_nth _ visited w false) by lia. cbn [bind]. destruct (nth w visited false) eqn:EV.
    + destruct (IH visited stack inside around) as (v' & s' & a' & E & I' & A' & S' & M' & N'); auto. { intros; apply HA; right; auto. } { intros; apply NA; right; auto. } unfold sw_neighbours in E. exists v', s', a'. split; [exact E|]. split; auto. split; auto. split; auto. split; auto. intros u [<-|Hu]; auto.
      apply VI in EV; auto. rewrite !in_app_iff in *. destruct EV as [X|X]; auto. right. apply in_app_or. apply M'. apply in_or_app. auto.
    + assert (NI : ~ In w (inside ++ stack ++ around)). { intros X. apply VI in X; auto. congruence. }
      rewrite wr_Ret by lia. cbn [bind]. rewrite find_r by auto. cbn [bind].
      assert (VU : forall u, u < n -> (nth u (upd visited w true) false = true <-> u = w \/ In u (inside ++ stack ++ around))).
      { intros u Hu. destruct (Nat.eq_dec u w) as [->|D]; [rewrite nth_upd_eq by lia; tauto|rewrite nth_upd_neq by auto; rewrite VI by auto; tauto]. }
      destruct (Nat.eqb_spec (r w) rep) as [ER|NR].
      * destruct (IH (upd visited w true) (w :: stack) inside around) as (v' & s' & a' & E & I' & A' & S' & M' & N'); auto.
        { split; [rewrite length_upd; auto|]. split; [apply NoDup_Add with (a := w) (l := inside ++ stack ++ around); [apply Add_app|auto]|]. split; [intros u Hu; rewrite VU by auto; rewrite !in_app_iff; cbn [In]; rewrite ?in_app_iff; intuition|].
          split; auto. intros u Hu. apply in_app_or in Hu. destruct Hu as [Hu|[<-|Hu]]; auto; apply IN; apply in_or_app; auto. }
        { intros; apply HA; right; auto. } { intros; apply NA; right; auto. } unfold sw_neighbours in E. exists v', s', a'. split; [exact E|]. split; auto. split; auto. split; [intros; apply S'; right; auto|].
        split; [intros u Hu; apply M'; right; auto|]. intros u [<-|Hu]; auto. rewrite !in_app_iff. right. left. apply S'. left. auto.
      * destruct (IH (upd visited w true) stack inside (around ++ [w])) as (v' & s' & a' & E & I' & A' & S' & M' & N'); auto.
        { split; [rewrite length_upd; auto|]. split; [rewrite !app_assoc; apply NoDup_Add with (a := w) (l := ((inside ++ stack) ++ around) ++ []); [apply Add_app|rewrite app_nil_r, <- app_assoc; auto]|]. split; [intros u Hu; rewrite VU by auto; rewrite !in_app_iff; cbn [In]; intuition|].
          split; auto. intros u Hu. apply in_app_or in Hu. destruct Hu as [Hu|[<-|[]]]; auto. }
        { intros; apply HA; right; auto. } { intros u Hu. apply in_app_or in Hu. destruct Hu as [Hu|[<-|[]]]; auto. exists v. split; [apply in_or_app; right; left; auto|]. apply NA. left. auto. } { intros; apply NA; right; auto. } unfold sw_neighbours in E. exists v', s', a'. split; [exact E|]. split; auto. split; auto. split; auto.
        assert (M2 : forall u, In u (stack ++ around ++ [w]) -> In u (s' ++ a')) by exact M'.
        split; [intros u Hu; apply M2; rewrite !in_app_iff in *; tauto|]. intros u [<-|Hu]; auto. apply in_or_app. right. apply M2. rewrite !in_app_iff. right. right. left. auto.
Qed.
Definition closed (inside stack around : list nat) : Prop := forall u w, In u inside -> near u w -> In w (inside ++ stack ++ around).
Lemma collect_ok : forall fuel visited stack inside around, cinv visited stack inside around -> In rep (inside ++ stack) -> closed inside stack around -> (forall w, In w around -> exists u, In u inside /\ near u w) -> n <= fuel + length inside ->
  exists visited' inside' around', sw_collect T fuel s p rep visited stack inside around = Ret (visited', inside', around') /\ cinv visited' [] inside' around' /\ In rep inside' /\ closed inside' [] around' /\ (forall w, In w around' -> exists u, In u inside' /\ near u w).
Proof.
  induction fuel as [|fuel IH]; intros visited stack inside around I HR CL AR HF.
  - destruct stack as [|v stack]; cbn [sw_collect]. { exists visited, inside, around. split; auto. split; auto. split; auto. rewrite app_nil_r in HR. auto. }
    exfalso. destruct I as (_ & ND & _ & IN & OUT). assert (B : length (inside ++ v :: stack) <= n). { apply NoDup_bound. { rewrite app_assoc in ND. apply (NoDup_app_remove_r _ _ _ ND). } rewrite Forall_forall. intros w Hw. apply IN; auto. } rewrite app_length in B. cbn in B. lia.
  - destruct stack as [|v stack]; cbn [sw_collect]. { exists visited, inside, around. split; auto. split; auto. split; auto. rewrite app_nil_r in HR. auto. }
    pose proof I as (LV & ND & VI & IN & OUT). assert (Hv : v < n) by (apply IN; apply in_or_app; right; left; auto).
    rewrite (rd_nth _ adj v []) by (rewrite adjl; auto). cbn [bind].
    assert (P1 : Permutation (inside ++ (v :: stack) ++ around) ((inside ++ [v]) ++ stack ++ around)) by (rewrite <- app_assoc; reflexivity).
    assert (I1 : cinv visited stack (inside ++ [v]) around).
    { split; auto. split; [apply (Permutation_NoDup P1); auto|]. split. { intros w Hw. rewrite VI by auto. split; apply Permutation_in; auto. symmetry; auto. } split; auto. intros w Hw. apply IN. rewrite <- app_assoc in Hw. exact Hw. }
    assert (N0 : forall w, In w (nth v adj []) -> near v w) by auto.
    destruct (neighbours_ok v (nth v adj []) visited stack (inside ++ [v]) around I1) as (v' & s' & a' & E & I' & A' & S' & M' & N').
    { intros w Hw. apply (near_lt v w). exact Hw. } { intros w Hw. destruct (AR w Hw) as (u & Hu & NU). exists u. split; auto. apply in_or_app. left. apply in_or_app. auto. } { auto. }
    rewrite E. cbn [bind]. apply IH; auto.
    + rewrite !in_app_iff in HR. rewrite !in_app_iff. cbn [In] in *. destruct HR as [X|[X|X]]; auto.
    + intros u w Hu NU. apply in_app_or in Hu. destruct Hu as [Hu|[<-|[]]]; [|apply N'; exact NU]. specialize (CL u w Hu NU). rewrite !in_app_iff in *. cbn [In] in *. destruct CL as [X|[[X|X]|X]]; auto; right; apply in_app_or; apply M'; apply in_or_app; auto.
    + intros w Hw. destruct (A' w Hw) as (u & Hu & NU). exists u. split; auto. rewrite !in_app_iff in *. tauto.
    + rewrite app_length. cbn [length]. lia.
Qed.
Lemma clean_ok : forall l visited, length visited = n -> Forall (fun w => w < n) l -> exists visited', sw_clean visited l = Ret visited' /\ length visited' = n /\ forall w, nth w visited' false = true <-> nth w visited false = true /\ ~ In w l.
Proof.
  induction l as [|v l IH]; intros visited L F; cbn [sw_clean foldM]. { exists visited. split; auto. split; auto. intros w. cbn. tauto. }
  apply Forall_cons_iff in F. destruct F as [Hv F]. unfold sw_clean. cbn [foldM]. rewrite wr_Ret by lia. cbn [bind]. destruct (IH (upd visited v false)) as (v' & E & L' & H); auto. { rewrite length_upd. auto. }
  exists v'. split; auto. split; auto. intros w. rewrite H. cbn [In]. destruct (Nat.eq_dec w v) as [->|D]; [rewrite nth_upd_eq by lia|rewrite nth_upd_neq by auto]; intuition congruence.
Qed.
(** What is found *)
Lemma found_ok : exists visited inside around, sw_collect T n s p rep (upd (repeat false n) rep true) [rep] [] [] = Ret (visited, inside, around) /\
  NoDup inside /\ NoDup around /\ (forall w, In w inside <-> linked s dr it rep w) /\ (forall w, In w around <-> ~ In w inside /\ exists u, In u inside /\ near u w) /\ Forall (fun w => w < n) inside /\ Forall (fun w => w < n) around /\
  exists v1, sw_clean visited inside = Ret v1 /\ sw_clean v1 around = Ret (repeat false n).
Proof.
  destruct (collect_ok n (upd (repeat false n) rep true) [rep] [] []) as (visited & inside & around & E & (LV & ND & VI & IN & OUT) & HR & CL & AR).
  - split; [rewrite length_upd, repeat_length; auto|]. cbn [app]. split; [constructor; auto; constructor|]. split.
    { intros w Hw. cbn [In]. destruct (Nat.eq_dec w rep) as [->|D]; [rewrite nth_upd_eq by (rewrite repeat_length; auto); tauto|rewrite nth_upd_neq by auto; rewrite nth_repeat; intuition congruence]. }
    split; [|intros w []]. intros w [<-|[]]. split; auto. apply r_linked; auto. apply rst_refl.
  - left. auto.
  - intros u w [].
  - intros w [].
  - cbn. lia.
  - cbn [app] in *. rewrite app_nil_r in IN. exists visited, inside, around. split; auto. split; [apply (NoDup_app_remove_r _ _ _ ND)|]. split; [apply (NoDup_app_remove_l _ _ _ ND)|].
    assert (FI : Forall (fun w => w < n) inside) by (rewrite Forall_forall; intros w Hw; apply IN; auto). assert (FA : Forall (fun w => w < n) around) by (rewrite Forall_forall; intros w Hw; apply OUT; auto).
    assert (C : forall w, In w inside <-> linked s dr it rep w).
    { intros w. split. { intros H. apply r_linked; apply IN; auto. } intros L. assert (X : forall a b, linked s dr it a b -> (In a inside <-> In b inside)).
      { intros a b Lab. induction Lab as [a b H|a|a b L' IH|a b c L1 I1 L2 I2]; try tauto.
        assert (NB : near a b). { pose proof (turned_lt _ _ H) as [Ha _]. apply on_turned in H; auto. destruct H as (j & _ & _ & Hj & <- & _). apply nth_In. auto. }
        pose proof (near_lt _ _ NB) as [Ha Hb].
        split; intros X; [specialize (CL a b X NB)|specialize (CL b a X (near_sym _ _ NB))]; apply in_app_or in CL; destruct CL as [|Y]; auto; exfalso; apply OUT in Y; destruct Y as [_ Y]; apply Y; apply r_linked; auto; apply IN in X; destruct X as [_ X]; apply r_linked in X; auto.
        - apply rst_trans with a; auto. apply rst_step. auto.
        - apply rst_trans with b; auto. apply rst_sym, rst_step. auto. }
      apply (X rep w L). auto. }
    split; auto. split.
    { intros w. split. { intros H. split; auto. intros X. apply OUT in H. apply IN in X. tauto. } intros (H & u & Hu & NU). specialize (CL u w Hu NU). apply in_app_or in CL. destruct CL; tauto. }
    split; auto. split; auto. destruct (clean_ok inside visited LV FI) as (v1 & E1 & L1 & H1). destruct (clean_ok around v1 L1 FA) as (v2 & E2 & L2 & H2). exists v1. split; auto. rewrite E2. f_equal.
    apply (nth_ext _ _ false false); [rewrite repeat_length; auto|]. intros w Hw. rewrite nth_repeat. destruct (nth w v2 false) eqn:X; auto. apply H2 in X. destruct X as [X Y]. apply H1 in X. destruct X as [X Z]. exfalso. apply VI in X; [|lia]. apply in_app_or in X. tauto.
Qed.

(** The proposal density *)
Definition spread (C : list nat) (w : nat) : Qc := qprod (map (fun e : nat * Qc => if member (fst e) C then (1 - snd e)%Qc else 1%Qc) (combine (nth w adj []) (nth w ep []))).
Lemma firstn_snoc_any : forall (A : Type) (d : A) l k, k < length l -> firstn (S k) l = firstn k l ++ [nth k l d].
Proof. intros A d. induction l as [|a l IH]; intros k H; cbn in H; [lia|]. destruct k as [|k]; auto. cbn [firstn nth app]. f_equal. apply IH. lia. Qed.
Lemma cut_ok : forall C w q, (forall v, In v C <-> linked s dr it rep v) -> w < n -> sw_cut T s p rep w q = Ret (q * spread C w)%Qc.
Proof.
  intros C w q HC Hw. unfold sw_cut, spread. rewrite (rd_nth _ adj w []) by (rewrite adjl; auto). cbn [bind]. set (f := fun e : nat * Qc => if member (fst e) C then (1 - snd e)%Qc else 1%Qc). set (l := combine (nth w adj []) (nth w ep [])).
  assert (LL : length l = length (nth w adj [])) by (unfold l; rewrite combine_length, rowl by auto; lia).
  match goal with |- context [foldM ?F (seq 0 ?m) q] => destruct (foldM_upto _ F (fun k q' => q' = (q * qprod (map f (firstn k l)))%Qc) m q) as (q' & E & H) end.
  - cbn [firstn map]. rewrite qprod_nil. ring.
  - intros k q' Hk ->. cbv beta. rewrite (rd_nth _ _ k 0) by auto. cbn [bind]. fold (at_adj adj w k). destruct (adj_lt_n T g W adj) with (u := w) (j := k) as (Hv & _); auto. { apply SO. } rewrite find_r by auto. cbn [bind].
    rewrite (firstn_snoc_any _ (0, 0%Qc)) by lia. rewrite map_app, qprod_app. cbn [map]. rewrite qprod_cons, qprod_nil. assert (NL : nth k l (0, 0%Qc) = (at_adj adj w k, at_ep ep w k)) by (unfold l; rewrite combine_nth by (rewrite rowl; auto); auto). rewrite NL. change (f (at_adj adj w k, at_ep ep w k)) with (if member (at_adj adj w k) C then (1 - at_ep ep w k)%Qc else 1%Qc).
    destruct (Nat.eqb_spec (r (at_adj adj w k)) rep) as [ER|NR].
    + rewrite (rd_nth _ ep w []) by (rewrite epl; auto). cbn [bind]. rewrite (rd_nth _ _ k 0%Qc) by (rewrite rowl; auto). cbn [bind]. fold (at_ep ep w k).
      eexists. split; [reflexivity|]. replace (member (at_adj adj w k) C) with true. { ring. } symmetry. apply member_In, HC, r_linked; auto.
    + eexists. split; [reflexivity|]. replace (member (at_adj adj w k) C) with false. { ring. } symmetry. destruct (member _ _) eqn:X; auto. exfalso. apply NR. apply member_In, HC, r_linked in X; auto.
  - rewrite <- LL, firstn_all in H. subst q'. exact E.
Qed.
Definition prop_step (target : nat) (qs : Qc * Qc) (w : nat) : outcome (Qc * Qc) :=
    lw <- rd x w ;; lr <- rd x rep ;;
    if lw =? lr then q <- sw_cut T s p rep w (fst qs) ;; Ret (q, snd qs)
    else if lw =? target then q <- sw_cut T s p rep w (snd qs) ;; Ret (fst qs, q)
    else Ret qs.
Lemma proposal_gen : forall C target around, (forall v, In v C <-> linked s dr it rep v) -> Forall (fun w => w < n) around -> forall a b,
  foldM (prop_step target) around (a, b) =
  Ret (Qcmult a (qprod (map (fun w => if nth w x 0 =? nth rep x 0 then spread C w else 1%Qc) around)), Qcmult b (qprod (map (fun w => if nth w x 0 =? nth rep x 0 then 1%Qc else if nth w x 0 =? target then spread C w else 1%Qc) around))).
Proof.
  intros C target around HC F. induction F as [|w l Hw F IH]; intros a b; cbn [foldM map]. { rewrite qprod_nil, !Qcmult_1_r. auto. }
  rewrite !qprod_cons. assert (E : prop_step target (a, b) w = Ret (if nth w x 0 =? nth rep x 0 then (Qcmult a (spread C w), b) else if nth w x 0 =? target then (a, Qcmult b (spread C w)) else (a, b))).
  { unfold prop_step. rewrite !(rd_nth _ x _ 0) by (rewrite x_len; auto). cbn [bind fst snd]. destruct (_ =? nth rep x 0); [|destruct (_ =? target)]; auto; rewrite (cut_ok C) by auto; auto. }
  rewrite E. cbn [bind]. destruct (_ =? nth rep x 0); [|destruct (_ =? target)]; rewrite IH; f_equal; f_equal; ring.
Qed.
Lemma cut_around : forall C around l, (forall w, In w around <-> ~ In w C /\ exists u, In u C /\ near u w) -> NoDup around -> Forall (fun w => w < n) around ->
  cut s x C l = qprod (map (fun w => if nth w x 0 =? l then spread C w else 1%Qc) around).
Proof.
  intros C around l HA ND F. unfold cut. rewrite x_len. fold adj ep. rewrite (qprod_sub _ (seq 0 n) around).
  - f_equal. apply map_ext_in. intros w Hw. apply HA in Hw. destruct Hw as [Hw _]. destruct (member w C) eqn:M; [apply member_In in M; contradiction|]. auto.
  - apply seq_NoDup.
  - auto.
  - intros w Hw. rewrite Forall_forall in F. apply in_seq. specialize (F w Hw). lia.
  - intros w _ NA. destruct (member w C) eqn:M; auto. cbn [negb andb]. destruct (_ =? l); auto. apply qprod_ones. intros q Hq. apply in_map_iff in Hq. destruct Hq as ([v e] & <- & Hv). cbn [fst snd]. apply in_combine_l in Hv.
    destruct (member v C) eqn:MV; auto. exfalso. apply NA. apply HA. split. { intros X. apply member_In in X. congruence. } exists v. split; [apply member_In; auto|]. apply near_sym. exact Hv.
Qed.
Lemma proposal_ok : forall C target around, (forall v, In v C <-> linked s dr it rep v) -> (forall w, In w around <-> ~ In w C /\ exists u, In u C /\ near u w) -> NoDup around -> Forall (fun w => w < n) around ->
  sw_proposal T s p rep target around = Ret (cut s x C (nth rep x 0), if target =? nth rep x 0 then 1%Qc else cut s x C target).
Proof.
  intros C target around HC HA ND F. unfold sw_proposal. fold (prop_step target). rewrite (proposal_gen C) by auto. rewrite !Qcmult_1_l. rewrite !(cut_around C around) by auto. f_equal. f_equal. destruct (Nat.eqb_spec target (nth rep x 0)) as [->|D].
  - apply qprod_ones. intros q Hq. apply in_map_iff in Hq. destruct Hq as (w & <- & _). destruct (_ =? _); auto.
  - f_equal. apply map_ext. intros w. destruct (Nat.eqb_spec (nth w x 0) (nth rep x 0)) as [E|]; auto. destruct (Nat.eqb_spec (nth w x 0) target) as [E'|]; auto. congruence.
Qed.
End Collect.

Lemma accept_iff : forall ratio u, negb (Qc_lt ratio 1) || negb (Qc_lt ratio u) = true <-> accepts ratio u.
Proof.
  intros ratio u. unfold accepts, Qc_lt. destruct (Qclt_le_dec ratio 1) as [A|A], (Qclt_le_dec ratio u) as [B|B]; cbn; split; auto; try discriminate.
  intros [X|X]; exfalso; [exact (Qclt_not_le _ _ A X)|exact (Qclt_not_le _ _ B X)].
Qed.
Lemma move_step : forall b C t, NoDup C -> Forall (fun w => w < n) C -> in_shape (labels_of g C) (repeat t (length C)) ->
  exists s', sw_move T OP mult ACC g b s C (repeat t (length C)) = Ret s' /\ swok s' /\ sw_adj s' = adj /\ sw_ep s' = ep /\ mm_state (sw_mm s') = recolour x C t /\
  (sw_best s', sw_value s') = if b && a_bop ACC (total OP g (recolour x C t)) (sw_value s) then (recolour x C t, total OP g (recolour x C t)) else (sw_best s, sw_value s).
Proof.
  intros b C t ND F SH. destruct SO as (MO & AO & EO & LB). unfold sw_move. rewrite (move_ok T OP mult fin OL g W FG) by (auto; split; auto). cbn [bind]. fold (recolour x C t). unfold mm_value. cbn [mm_energy mm_state].
  assert (LX : labeling g (recolour x C t)) by (apply (relabel_labeling T g); auto; apply MO). pose proof (moved_ok T OP g _ _ MO LX) as MO'.
  destruct (b && _) eqn:B.
  - rewrite copy_ok by (auto using labeling_length). cbn [bind]. eexists. split; [reflexivity|]. split; [split; [exact MO'|]; split; auto|]. auto.
  - eexists. split; [reflexivity|]. split; [split; [exact MO'|]; split; auto|]. auto.
Qed.
(** One iteration *)
Definition stepped (s' : sw T) (call : swcall) (rep : nat) (C : list nat) (t : nat) : Prop :=
  rep < n /\ NoDup C /\ (forall w, In w C <-> linked s dr it rep w) /\ Forall (fun w => w < n) C /\ t < nth rep (v_labels g) 0 /\
  sc_iteration call = it /\ sc_size call = length C /\ sc_burning call = (it <? sp_burn par) /\
  (sc_accepted call = true <-> it < sp_burn par \/ accepts (mh_ratio OP prob g s x C (nth rep x 0) t) (sd_accept dr it)) /\
  mm_state (sw_mm s') = (if sc_accepted call then recolour x C t else x) /\ sc_state call = mm_state (sw_mm s') /\ sw_adj s' = adj /\ sw_ep s' = ep /\
  (sw_best s', sw_value s') = if sc_accepted call && negb (sc_burning call) && a_bop ACC (total OP g (recolour x C t)) (sw_value s) then (recolour x C t, total OP g (recolour x C t)) else (sw_best s, sw_value s).
Lemma step_ok : forall p0, exists s' p' call, sw_step T OP mult ACC prob g par dr (s, p0, repeat false n) it = Ret (s', p', repeat false n, call) /\ swok s' /\ exists rep C t, stepped s' call rep C t.
Proof.
  intros p0. unfold sw_step. destruct (cluster_ok p0) as (p & pairs & EC & PI & PL). rewrite EC. cbn [bind]. rewrite (part_representatives_eq p n pairs PI). cbn [bind].
  assert (NZ : length (roots (parents p)) <> 0). { destruct (Root_exists _ _ (pi_forest _ _ _ PI) 0) as [a Ha]; [rewrite (pi_len _ _ _ PI); auto|]. apply Root_self in Ha. apply roots_In in Ha. destruct (roots (parents p)); [destruct Ha|cbn; lia]. }
  unfold random at 1. rewrite (pi_sets _ _ _ PI). destruct (Nat.eqb_spec (length (roots (parents p))) 0) as [|_]; [contradiction|]. cbn [bind].
  set (idx := sd_cluster dr it mod length (roots (parents p))). assert (HI : idx < length (roots (parents p))) by (apply Nat.mod_upper_bound; auto). rewrite (rd_nth _ _ idx 0) by auto. cbn [bind]. set (rep := nth idx (roots (parents p)) 0).
  assert (RR : nth_error (parents p) rep = Some rep) by (apply roots_In; apply nth_In; auto). assert (RL : rep < n) by (rewrite <- (pi_len _ _ _ PI); apply nth_error_Some; congruence).
  rewrite wr_Ret by (rewrite repeat_length; auto). cbn [bind]. destruct (found_ok p pairs PI PL rep RL RR) as (visited & C & around & EF & NDC & NDA & HC & HA & FC & FA & v1 & E1 & E2). rewrite EF. cbn [bind]. rewrite E1. cbn [bind]. rewrite E2. cbn [bind].
  rewrite (rd_nth _ _ rep 0) by auto. cbn [bind]. pose proof (positive_label T g W rep RL) as PO. unfold random. destruct (Nat.eqb_spec (nth rep (v_labels g) 0) 0) as [|_]; [lia|]. cbn [bind]. set (t := sd_label dr it mod nth rep (v_labels g) 0). assert (HT : t < nth rep (v_labels g) 0) by (apply Nat.mod_upper_bound; lia).
  assert (SH : in_shape (labels_of g C) (repeat t (length C))).
  { assert (X : forall w, In w C -> t < nth w (v_labels g) 0). { intros w Hw. apply HC in Hw. apply linked_same in Hw. destruct Hw as [_ <-]. auto. } clear - X. unfold labels_of, in_shape. induction C as [|w C IH]; cbn; constructor; [apply X; left; auto|apply IH; intros; apply X; right; auto]. }
  destruct (Nat.ltb_spec it (sp_burn par)) as [LT|GE].
  - destruct (move_step false C t NDC FC SH) as (s' & EM & SO' & A1 & A2 & A3 & A4). rewrite EM. cbn [bind]. eexists s', p, _. split; [reflexivity|]. split; auto. exists rep, C, t. unfold stepped. cbn [sc_iteration sc_size sc_accepted sc_burning sc_state].
    split; auto. split; auto. split; auto. split; auto. split; auto. split; auto. split; auto. split. { symmetry. apply Nat.ltb_lt. auto. } split; [tauto|]. split; auto.
  - pose proof SO as (MO & AO & EO & LB). rewrite (valueAfterMove_ok T OP mult fin OL g W FG) by (auto; split; auto). cbn [bind]. fold (recolour x C t). assert (ES : mkSw (sw_mm s) adj ep (sw_best s) (sw_value s) = s) by (destruct s; auto). rewrite ES.
    rewrite (proposal_ok p pairs PI PL rep RL RR C t around) by auto. cbn [bind]. assert (EV : mm_value (sw_mm s) = total OP g x) by apply MO. rewrite EV.
    assert (BF : (it <? sp_burn par) = false) by (apply Nat.ltb_ge; auto).
    fold (mh_ratio OP prob g s x C (nth rep x 0) t). destruct (negb _ || negb _) eqn:AC.
    + destruct (move_step true C t NDC FC SH) as (s' & EM & SO' & A1 & A2 & A3 & A4). rewrite EM. cbn [bind]. eexists s', p, _. split; [reflexivity|]. split; auto. exists rep, C, t. unfold stepped. cbn [sc_iteration sc_size sc_accepted sc_burning sc_state].
      split; auto. split; auto. split; auto. split; auto. split; auto. split; auto. split; auto. split; auto. apply accept_iff in AC. split; [tauto|]. split; auto.
    + eexists s, p, _. split; [reflexivity|]. split; auto. exists rep, C, t. unfold stepped. cbn [sc_iteration sc_size sc_accepted sc_burning sc_state].
      split; auto. split; auto. split; auto. split; auto. split; auto. split; auto. split; auto. split; auto. split; [|split; auto]. rewrite <- accept_iff, AC. split; [discriminate|]. intros [X|X]; [lia|discriminate].
Qed.
End State.
End Proofs.
