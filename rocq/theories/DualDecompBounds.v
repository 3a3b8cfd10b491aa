(** Proofs about dual decomposition: the bounds. *)
From Coq Require Import ZArith QArith Qcanon Sorted.
From Verif Require Import Base Values GmView GmViewSpec GmViewProofs ShapeSpec ShapeProofs UtilModel ConstraintModel ConstraintSpec ConstraintProofs ConstraintCounts MpModel DecompModel DecompSpec DecompProofs DecompReorder DecompBuild DualDecompModel DualDecompSpec DualDecompProofs DualDecompInv DualDecompStep.
Open Scope nat_scope.

(** ** Counting labels *)
Definition counted (c : list (nat * nat)) (ls : list nat) : Prop :=
  StronglySorted lt (map fst c) /\ forall l n, In (l, n) c <-> n = count_occ Nat.eq_dec ls l /\ 0 < n.

Lemma count_keys : forall c l k, In k (map fst (count_label c l)) <-> k = l \/ In k (map fst c).
Proof.
  induction c as [|[k n] c IH]; intros l k'; cbn [count_label map fst In]. { intuition. }
  destruct (Nat.ltb_spec l k); [cbn [map fst In]; intuition|]. destruct (Nat.ltb_spec k l); cbn [map fst In].
  - rewrite IH. intuition.
  - assert (k = l) by lia. subst. intuition.
Qed.
Lemma count_sorted : forall c l, StronglySorted lt (map fst c) -> StronglySorted lt (map fst (count_label c l)).
Proof.
  induction c as [|[k n] c IH]; intros l H; cbn [count_label map fst]. { repeat constructor. } inversion H as [|? ? H1 H2]; subst.
  destruct (Nat.ltb_spec l k).
  - cbn [map fst]. constructor; auto. constructor; auto. eapply Forall_impl; [|exact H2]. cbn. intros; lia.
  - destruct (Nat.ltb_spec k l); cbn [map fst]; constructor; auto. rewrite Forall_forall in *. intros x I. apply count_keys in I. destruct I as [->|I]; auto.
Qed.
Lemma count_in : forall c l x n, StronglySorted lt (map fst c) -> (In (x, n) (count_label c l) <->
  if Nat.eq_dec x l then (exists n', In (l, n') c /\ n = S n') \/ (n = 1 /\ ~ In l (map fst c)) else In (x, n) c).
Proof.
  induction c as [|[k m] c IH]; intros l x n H; cbn [count_label map fst In].
  { destruct (Nat.eq_dec x l) as [->|NE]. - split. + intros [E|[]]. injection E as <-. right. auto. + intros [[n' [[] _]]|[-> _]]. auto. - split; [intros [E|[]]; congruence|tauto]. }
  cbn [map fst] in H. inversion H as [|? ? H1 H2]; subst. rewrite Forall_forall in H2.
  destruct (Nat.ltb_spec l k) as [L|L].
  - cbn [In]. assert (NI : ~ (k = l \/ In l (map fst c))). { intros [->|I]; [lia|]. apply H2 in I. lia. }
    destruct (Nat.eq_dec x l) as [->|NE].
    + split. * intros [E|I]. { injection E as <-. right. auto. } exfalso. apply NI. destruct I as [E|I]; [injection E; auto|]. right. apply (in_map fst) in I. auto.
      * intros [[n' [I ->]]|[-> _]]; [|auto]. exfalso. apply NI. destruct I as [E|I]; [injection E; auto|]. right. apply (in_map fst) in I. auto.
    + split. * intros [E|I]; [congruence|auto]. * auto.
  - destruct (Nat.ltb_spec k l) as [L2|L2]; cbn [In].
    + rewrite IH by auto. destruct (Nat.eq_dec x l) as [->|NE]; [|tauto]. split.
      * intros [E|[[n' [I ->]]|[-> I]]]. { injection E. lia. } { left. eauto. } right. split; auto. intros [->|J]; [lia|tauto].
      * intros [[n' [[E|I] ->]]|[-> I]]. { injection E. lia. } { right. left. eauto. } right. right. split; auto.
    + assert (k = l) by lia. subst k. destruct (Nat.eq_dec x l) as [->|NE].
      * split. { intros [E|I]. - injection E as <-. left. exists m. auto. - apply (in_map fst) in I. apply H2 in I. cbn in I. lia. }
        intros [[n' [[E|I] ->]]|[_ I]]. { injection E as <-. auto. } { apply (in_map fst) in I. apply H2 in I. cbn in I. lia. } exfalso. apply I. auto.
      * split. { intros [E|I]; [injection E; congruence|auto]. } intros [E|I]; [injection E; congruence|auto].
Qed.
Lemma counted_step : forall c ls l, counted c ls -> counted (count_label c l) (ls ++ [l]).
Proof.
  intros c ls l [C1 C2]. split. { apply count_sorted. auto. } intros x n. rewrite count_in by auto. rewrite count_occ_app. cbn [count_occ]. destruct (Nat.eq_dec x l) as [->|NE].
  - destruct (Nat.eq_dec l l); [|tauto]. split.
    + intros [[n' [I ->]]|[-> I]]. { apply C2 in I. lia. } split; [|lia]. destruct (count_occ Nat.eq_dec ls l) eqn:E; [lia|]. exfalso. apply I. change l with (fst (l, S n)). apply in_map. apply C2. rewrite E. split; [auto|lia].
    + intros [-> H]. destruct (count_occ Nat.eq_dec ls l) as [|q] eqn:E.
      * right. split; auto. intros J. apply in_map_iff in J. destruct J as [[l' q] [E1 J]]. cbn in E1. subst l'. apply C2 in J. lia.
      * left. exists (S q). split; [|lia]. apply C2. split; [auto|lia].
  - destruct (Nat.eq_dec l x); [congruence|]. rewrite Nat.add_0_r. apply C2.
Qed.

(** the entry with the largest count; the first one of several *)
Lemma most_frequent_ok : forall c, StronglySorted lt (map fst c) -> Forall (fun e => 0 < snd e) c ->
  (c = [] /\ most_frequent c = 0) \/ exists n, In (most_frequent c, n) c /\ forall l k, In (l, k) c -> k <= n /\ (k = n -> most_frequent c <= l).
Proof.
  intros c S0 P. unfold most_frequent.
  assert (X : forall c st, StronglySorted lt (map fst c) -> Forall (fun l => snd st < l \/ fst st = 0) (map fst c) -> Forall (fun e => 0 < snd e) c ->
    let r := fold_left (fun st (e : nat * nat) => if fst st <? snd e then (snd e, fst e) else st) c st in
    (r = st \/ In (snd r, fst r) c) /\ fst st <= fst r /\ (fst st = fst r -> r = st) /\ forall l k, In (l, k) c -> k <= fst r /\ (k = fst r -> snd r <= l)).
  { clear. induction c as [|[l0 k0] c IH]; intros st S0 L P; cbn [fold_left]. { split; auto. split; auto. split; auto. intros l k []. }
    cbn [map fst] in S0, L. inversion S0 as [|? ? S1 S2]; subst. inversion L as [|? ? L1 L2]; subst. inversion P as [|? ? P1 P2]; subst. cbn [snd fst] in *.
    destruct (Nat.ltb_spec (fst st) k0) as [LT|GE].
    - destruct (IH (k0, l0)) as [A1 [A2 [A3 A4]]]; auto. { eapply Forall_impl; [|exact S2]. cbn. auto. } cbn zeta in *. cbn [fst snd] in *. set (r := fold_left _ c _) in *. split; [|split; [|split]].
      + right. destruct A1 as [->|A1]; [left; auto|right; auto]. + lia. + intros E. lia.
      + intros l k [E|I]; [|apply A4; auto]. injection E as <- <-. split; auto. intros E. rewrite (A3 E). cbn. auto.
    - destruct (IH st S1 L2 P2) as [A1 [A2 [A3 A4]]]. cbn zeta in *. set (r := fold_left _ c _) in *. split; [|split; [|split]]; auto.
      + destruct A1; [auto|right; right; auto].
      + intros l k [E|I]; [|apply A4; auto]. injection E as <- <-. split; [lia|]. intros E. assert (E2 : fst st = fst r) by lia. rewrite (A3 E2). destruct L1 as [L1|L1]; [lia|]. lia. }
  destruct (X c (0, 0)) as [A1 [A2 [A3 A4]]]; auto. { apply Forall_forall. intros l _. right. auto. } cbn zeta in *. set (r := fold_left _ c _) in *. destruct A1 as [E|I].
  - left. destruct c as [|[l k] c]; [rewrite E; auto|]. destruct (A4 l k (or_introl eq_refl)) as [A5 _]. inversion P; subst. rewrite E in A5. cbn in *. lia.
  - right. exists (fst r). split; auto.
Qed.

Section Bounds.
Variable gm : gmv Qc.
Hypothesis WF : wf_gmv gm.
Notation nv := (length (v_labels gm)).
Notation fs := (map fst (v_factors gm)).
Variable d : dec.
Hypothesis DC : decomposes nv fs d.
Hypothesis OR : ordered d.
Notation groups := (groups gm d).

Lemma lab_pos : forall v, v < nv -> 0 < lab gm v.
Proof. intros v H. destruct WF as [_ P]. unfold positive in P. rewrite Forall_forall in P. apply P. apply nth_In. auto. Qed.

(** ** The majority of the copies *)
Lemma votes_count : forall states v l, votes d states v l = count_occ Nat.eq_dec (map (fun p => nth (snd p) (nth (fst p) states []) 0) (nth v (d_vl d) [])) l.
Proof.
  intros states v l. unfold votes. induction (nth v (d_vl d) []) as [|p t IH]; auto. cbn [filter map count_occ]. destruct (Nat.eq_dec _ l) as [E|E].
  - rewrite E, Nat.eqb_refl. cbn [length]. rewrite IH. auto.
  - destruct (Nat.eqb_spec (nth (snd p) (nth (fst p) states []) 0) l); [tauto|auto].
Qed.

Lemma default_ok : forall st states, INV gm d st -> states_ok gm d st states -> exists def, default_label gm d states = Ret def /\ elected gm d states def /\ labeling gm def.
Proof.
  intros st states I ST. unfold default_label, nvar.
  assert (X : forall v, v < nv -> exists l, (l0 <- rd (d_vl d) v ;; c <- foldM (fun c p => x <- rd2 states (fst p) (snd p) ;; Ret (count_label c x)) l0 [] ;; Ret (most_frequent c)) = Ret l /\ majority d states v l /\ l < lab gm v).
  { intros v Hv. rewrite (rd_nth _ (d_vl d) v []) by (rewrite (proj2 (dc_nv _ _ _ DC)); auto). cbn [bind]. set (f := fun p : nat * nat => nth (snd p) (nth (fst p) states []) 0).
    assert (Y : forall l c ls, (forall p, In p l -> copy_of d v (fst p) (snd p)) -> counted c ls -> exists c', foldM (fun c p => x <- rd2 states (fst p) (snd p) ;; Ret (count_label c x)) l c = Ret c' /\ counted c' (ls ++ map f l)).
    { induction l as [|p l IH]; intros c ls H C; cbn [foldM map]. { exists c. rewrite app_nil_r. auto. }
      destruct (states_label gm d DC st states v _ _ I ST (H p (or_introl eq_refl))) as [E _]. rewrite E. cbn [bind]. destruct (IH (count_label c (f p)) (ls ++ [f p])) as [c' [E2 C2]].
      - intros q J. apply H. right. auto. - apply counted_step. auto. - exists c'. rewrite <- app_assoc in C2. auto. }
    destruct (Y (nth v (d_vl d) []) [] []) as [c [E [C1 C2]]]. { intros [m k] J. exact J. } { split; [constructor|]. intros l n. cbn. lia. }
    rewrite E. cbn [bind app] in *. exists (most_frequent c). split; auto.
    destruct (most_frequent_ok c C1) as [[-> M]|[n [M1 M2]]]. { apply Forall_forall. intros [l n] J. apply C2 in J. cbn. lia. }
    - rewrite M. assert (Z : nth v (d_vl d) [] = []). { destruct (nth v (d_vl d) []) as [|p t] eqn:Z; auto. exfalso. cbn [map count_occ] in C2. destruct (C2 (f p) (count_occ Nat.eq_dec (map f (p :: t)) (f p))) as [_ C3]. cbn [map count_occ] in C3. destruct (Nat.eq_dec (f p) (f p)); [|tauto]. destruct C3. split; auto. lia. }
      split; [left; auto|]. apply lab_pos. auto.
    - split.
      + right. rewrite votes_count. fold f. assert (M3 := proj1 (C2 _ _) M1). destruct M3 as [M3 M4]. rewrite <- M3. split; auto. intros l'. rewrite votes_count. fold f. destruct (Nat.eq_dec (count_occ Nat.eq_dec (map f (nth v (d_vl d) [])) l') 0) as [Z|Z].
        { rewrite Z. split; lia. } apply M2. apply C2. split; auto. lia.
      + apply C2 in M1. destruct M1 as [M3 M4]. assert (J : In (most_frequent c) (map f (nth v (d_vl d) []))) by (apply (count_occ_In Nat.eq_dec); lia).
        apply in_map_iff in J. destruct J as [[m k] [<- J]]. apply (states_label gm d DC st states v m k I ST J). }
  assert (Z : forall n, n <= nv -> exists def, mapM (fun v => l0 <- rd (d_vl d) v ;; c <- foldM (fun c p => x <- rd2 states (fst p) (snd p) ;; Ret (count_label c x)) l0 [] ;; Ret (most_frequent c)) (seq 0 n) = Ret def /\ length def = n /\ forall v, v < n -> majority d states v (nth v def 0) /\ nth v def 0 < lab gm v).
  { induction n as [|n IH]; intros Hn. { exists []. split; auto. split; auto. intros; lia. } destruct (IH ltac:(lia)) as [def [E [L H]]]. destruct (X n Hn) as [l [E2 H2]]. exists (def ++ [l]). split.
    - rewrite seq_S. cbn [plus]. clear - E E2. revert def E. induction (seq 0 n) as [|a t IH]; intros def E; cbn [mapM app] in *. { injection E as <-. rewrite E2. auto. }
      apply bind_inv in E. destruct E as [x [Ex E]]. rewrite Ex. cbn [bind]. apply bind_inv in E. destruct E as [y [Ey E]]. injection E as <-. rewrite (IH y Ey). auto.
    - split. { rewrite app_length. cbn. lia. } intros v Hv. destruct (Nat.eq_dec v n) as [->|]. { rewrite app_nth2, L, Nat.sub_diag by lia. auto. } rewrite app_nth1 by lia. apply H. lia. }
  destruct (Z nv (le_n _)) as [def [E [L H]]]. exists def. split; auto. split. { split; auto. intros v Hv. apply H. auto. } apply in_shape_nth. split; auto. intros k Hk. apply H. auto.
Qed.

(** ** Submodels with all variables *)
Definition same_ok (t : list tribool) : Prop := length t = d_nm d /\ forall m, m < d_nm d -> (nth m t TMaybe = TTrue /\ all_variables gm d m) \/ (nth m t TMaybe = TFalse /\ ~ all_variables gm d m).
Lemma same_variables_ok : forall st, INV gm d st -> 0 < d_nm d -> dd_same st = repeat TMaybe (d_nm d) \/ same_ok (dd_same st) -> exists t, same_variables gm st = Ret t /\ same_ok t.
Proof.
  intros st I NM H. unfold same_variables. assert (LS : length (dd_same st) = d_nm d). { destruct H as [->|[H _]]; auto. apply repeat_length. }
  rewrite (rd_nth _ (dd_same st) 0 TMaybe) by lia. cbn [bind]. destruct H as [H|H]. 2: { exists (dd_same st). split; auto. destruct (proj2 H 0 NM) as [[-> _]|[-> _]]; auto. }
  rewrite H. replace (nth 0 (repeat TMaybe (d_nm d)) TMaybe) with TMaybe. 2: { destruct (d_nm d); auto. }
  rewrite (iv_dec _ _ _ I). unfold nvar. destruct (iv_labels _ _ _ I) as [[L1 L2] _].
  (* after the variables *)
  destruct (foldM_seq_ind nat (list tribool) (fun n t => length t = d_nm d /\ forall m, m < d_nm d -> (nth m t TMaybe = TMaybe /\ forall v k, v < n -> copy_of d v m k -> k = v) \/ (nth m t TMaybe = TFalse /\ exists v k, copy_of d v m k /\ k <> v))
    (fun t v => l <- rd (d_vl d) v ;; foldM (fun t p => if snd p =? v then Ret t else wr t (fst p) TFalse) l t) (seq 0 nv) 0 (repeat TMaybe (d_nm d))) as [t [E [T1 T2]]].
  - split; [apply repeat_length|]. intros m Hm. left. split; [|intros; lia]. destruct (nth_in_or_default m (repeat TMaybe (d_nm d)) TMaybe) as [J|J]; auto. apply repeat_spec in J. auto.
  - intros i v t Hi [T1 T2]. apply nth_error_seq0 in Hi. destruct Hi as [-> Hi]. cbn [plus] in *. rewrite (rd_nth _ (d_vl d) i []) by (rewrite (proj2 (dc_nv _ _ _ DC)); auto). cbn [bind].
    assert (X : forall l t, (forall p, In p l -> copy_of d i (fst p) (snd p)) -> length t = d_nm d ->
      (forall m, m < d_nm d -> (nth m t TMaybe = TMaybe /\ forall v k, v < i -> copy_of d v m k -> k = v) \/ (nth m t TMaybe = TFalse /\ exists v k, copy_of d v m k /\ k <> v)) ->
      exists t', foldM (fun t p => if snd p =? i then Ret t else wr t (fst p) TFalse) l t = Ret t' /\ length t' = d_nm d /\
        (forall m, m < d_nm d -> (nth m t' TMaybe = TMaybe /\ nth m t TMaybe = TMaybe /\ (forall v k, v < i -> copy_of d v m k -> k = v) /\ forall k, In (m, k) l -> k = i) \/ (nth m t' TMaybe = TFalse /\ exists v k, copy_of d v m k /\ k <> v))).
    { clear t T1 T2. induction l as [|p l IH]; intros t HP T1 T2; cbn [foldM]. { exists t. split; auto. split; auto. intros m Hm. destruct (T2 m Hm) as [[Q1 Q2]|Q]; auto. left. split; auto. split; auto. split; auto. intros k []. }
      destruct (dc_range _ _ _ DC _ _ _ (HP p (or_introl eq_refl))) as [_ [R1 R2]]. destruct (Nat.eqb_spec (snd p) i) as [Ep|Ep].
      - cbn [bind]. destruct (IH t) as [t' [E' [T1' T2']]]; auto. { intros q J. apply HP. right. auto. } exists t'. split; auto. split; auto. intros m Hm. destruct (T2' m Hm) as [[Q1 [Q2 [Q3 Q4]]]|Q]; auto. left. split; auto. split; auto. split; auto. intros k [J|J]; auto. subst p. auto.
      - rewrite wr_Ret by lia. cbn [bind]. destruct (IH (upd t (fst p) TFalse)) as [t' [E' [T1' T2']]]. { intros q J. apply HP. right. auto. } { rewrite length_upd. auto. }
        { intros m Hm. rewrite nth_upd by lia. destruct (Nat.eq_dec (fst p) m) as [<-|]; [|apply T2; auto]. right. split; auto. exists i, (snd p). split; auto. apply HP. left. auto. }
        exists t'. split; auto. split; auto. intros m Hm. destruct (T2' m Hm) as [[Q1 [Q2 [Q3 Q4]]]|Q]; auto. rewrite nth_upd in Q2 by lia. destruct (Nat.eq_dec (fst p) m) as [<-|NE]; [discriminate|]. left. split; auto. split; auto. split; auto.
        intros k [J|J]; auto. subst p. cbn in NE. tauto. }
    destruct (X (nth i (d_vl d) []) t) as [t' [E' [T1' T2']]]; auto. { intros [m k] J. exact J. } exists t'. split; auto. split; auto. intros m Hm. destruct (T2' m Hm) as [[Q1 [Q2 [Q3 Q4]]]|Q]; auto. left. split; auto.
    intros v k Hv C. destruct (Nat.eq_dec v i) as [->|]; [|apply Q3; auto; lia]. apply Q4. exact C.
  - rewrite E. cbn [bind]. cbn [plus] in T2. rewrite seq_length in T2. rewrite L1.
    destruct (foldM_seq_ind nat (list tribool) (fun n t' => length t' = d_nm d /\ (forall m, n <= m -> nth m t' TMaybe = nth m t TMaybe) /\ forall m, m < n -> (nth m t' TMaybe = TTrue /\ all_variables gm d m) \/ (nth m t' TMaybe = TFalse /\ ~ all_variables gm d m))
      (fun t m => ls <- rd (dd_labels st) m ;; t <- (if nv =? length ls then Ret t else wr t m TFalse) ;; x <- rd t m ;; match x with TMaybe => wr t m TTrue | _ => Ret t end) (seq 0 (d_nm d)) 0 t) as [t' [E' [T1' [_ T2']]]].
    + split; auto. split; auto. intros; lia.
    + intros i a t' Hi [A1 [A2 A3]]. apply nth_error_seq0 in Hi. destruct Hi as [-> Hi]. cbn [plus] in *. rewrite (rd_nth _ (dd_labels st) i []) by lia. cbn [bind]. rewrite L2 by auto.
      destruct (Nat.eqb_spec nv (nth i (d_nsv d) 0)) as [Q|Q]; cbn [bind].
      * rewrite (rd_nth _ t' i TMaybe) by lia. cbn [bind]. rewrite (A2 i) by lia. destruct (T2 i Hi) as [[B1 B2]|[B1 [v [k [B2 B3]]]]]; rewrite B1.
        { rewrite wr_Ret by lia. eexists. split; [reflexivity|]. rewrite length_upd. split; auto. split. { intros m Hm. rewrite nth_upd by lia. destruct (Nat.eq_dec i m); [lia|]. apply A2. lia. }
          intros m Hm. rewrite nth_upd by lia. destruct (Nat.eq_dec i m) as [<-|]; [|apply A3; lia]. left. split; auto. split; auto. intros v k C. apply B2; auto. apply (dc_range _ _ _ DC _ _ _ C). }
        { exists t'. split; auto. split; auto. split. { intros m Hm. apply A2. lia. } intros m Hm. destruct (Nat.eq_dec i m) as [<-|]; [|apply A3; lia]. right. split. { rewrite A2 by lia. auto. } intros [_ AV]. apply B3. apply AV. auto. }
      * rewrite wr_Ret by lia. cbn [bind]. rewrite (rd_nth _ _ i TMaybe) by (rewrite length_upd; lia). rewrite nth_upd_eq by lia. cbn [bind]. eexists. split; [reflexivity|]. rewrite length_upd. split; auto. split.
        { intros m Hm. rewrite nth_upd by lia. destruct (Nat.eq_dec i m); [lia|]. apply A2. lia. }
        intros m Hm. rewrite nth_upd by lia. destruct (Nat.eq_dec i m) as [<-|]; [|apply A3; lia]. right. split; auto. intros [AV _]. lia.
    + exists t'. split; auto. split; auto. intros m Hm. apply T2'. rewrite seq_length. auto.
Qed.
End Bounds.
