(** Proofs about GraphicalModelDecomposition::complete and isValid. *)
From Coq Require Import Sorted Permutation.
From Verif Require Import Base DecompModel FactorGraphModel FactorGraphSpec DecompSpec DecompProofs DecompReorder.
#[local] Arguments nth_error : simpl never.

Section C.
Variable nv : nat.
Variable fs : list (list nat).
Notation DC := (decomposes nv fs).

Lemma copy_fun : forall d, DC d -> forall u v m k, copy_of d u m k -> copy_of d v m k -> u = v.
Proof. intros d H u v m k U V. destruct (dc_range _ _ _ H _ _ _ U) as [_ [R1 R2]]. destruct (dc_exact _ _ _ H m k R1 R2) as [w [_ W]]. rewrite <- (W u U), <- (W v V). auto. Qed.

Lemma real_table_ok : forall d, DC d -> exists t, real_table d = Ret t /\ forall v m k, copy_of d v m k -> rd2 t m k = Ret v.
Proof.
  intros d H. unfold real_table. rewrite (sub_table_ok nv fs d H). cbn [bind]. set (g := fun t v => _).
  set (OK := fun t : list (list nat) => length t = d_nm d /\ forall m, length (nth m t []) = nth m (d_nsv d) 0).
  assert (IN : forall v l t, OK t -> (forall m k, In (m, k) l -> copy_of d v m k) -> exists t', foldM (fun t p => wr2 t (fst p) (snd p) v) l t = Ret t' /\ OK t' /\
    (forall m k, In (m, k) l -> ren_of t' m k = v) /\ (forall m k, ~ In (m, k) l -> ren_of t' m k = ren_of t m k)).
  { intros v. induction l as [|[m k] l IH]; intros t T B; cbn [foldM]. { exists t. repeat split; auto; try apply T. intros m k []. }
    destruct T as [T1 T2]. destruct (dc_range _ _ _ H _ _ _ (B m k (or_introl eq_refl))) as [_ [R1 R2]]. cbn [fst snd]. unfold wr2. rewrite (rd_nth _ t m []) by lia. cbn [bind].
    rewrite wr_Ret by (rewrite T2; auto). cbn [bind]. rewrite wr_Ret by lia. cbn [bind].
    destruct (IH (upd t m (upd (nth m t []) k v))) as [t' [E [O [V1 V2]]]].
    - split. { rewrite length_upd. auto. } intros m'. rewrite nth_upd by lia. destruct (Nat.eq_dec m m') as [<-|]; auto. rewrite length_upd. auto.
    - intros m' k' I. apply B. cbn. auto.
    - exists t'. split; auto. split; auto.
      assert (U : forall m' k', ren_of (upd t m (upd (nth m t []) k v)) m' k' = if Nat.eq_dec m m' then if Nat.eq_dec k k' then v else ren_of t m' k' else ren_of t m' k').
      { intros m' k'. unfold ren_of. rewrite nth_upd by lia. destruct (Nat.eq_dec m m') as [<-|]; auto. rewrite nth_upd by (rewrite T2; auto). auto. }
      split.
      + intros m' k' I. destruct (in_dec (fun a b : nat * nat => ltac:(decide equality; apply Nat.eq_dec) : {a = b} + {a <> b}) (m', k') l) as [J|J]; auto.
        rewrite V2 by auto. rewrite U. destruct I as [I|I]; [|tauto]. injection I as <- <-. destruct (Nat.eq_dec m m); [|lia]. destruct (Nat.eq_dec k k); lia.
      + intros m' k' I. rewrite V2 by (intros J; apply I; cbn; auto). rewrite U. destruct (Nat.eq_dec m m') as [<-|]; auto. destruct (Nat.eq_dec k k') as [<-|]; auto. exfalso. apply I. cbn. auto. }
  assert (L : forall n t, n <= nv -> OK t -> exists t', foldM g (seq 0 n) t = Ret t' /\ OK t' /\ forall v m k, v < n -> copy_of d v m k -> ren_of t' m k = v).
  { induction n as [|n IH]; intros t Hn T. { exists t. repeat split; try apply T. intros. lia. }
    rewrite seq_S, foldM_app. destruct (IH t ltac:(lia) T) as [t1 [E1 [O1 V1]]]. rewrite E1. cbn [bind foldM]. unfold g at 1. cbn [plus].
    rewrite (rd_nth _ (d_vl d) n []) by (rewrite (proj2 (dc_nv _ _ _ H)); lia). cbn [bind].
    destruct (IN n (nth n (d_vl d) []) t1 O1) as [t2 [E2 [O2 [V2 V3]]]]. { auto. } rewrite E2. cbn [bind]. exists t2. repeat split; try apply O2.
    intros v m k Hv C. destruct (Nat.eq_dec v n) as [->|N]; [apply V2; auto|]. rewrite V3; [apply V1; auto; lia|]. intros C'. apply N. eapply copy_fun; eauto. }
  rewrite (proj1 (dc_nv _ _ _ H)). destruct (L nv (map (fun n => repeat 0 n) (d_nsv d)) ltac:(lia)) as [t [E [[O1 O2] V]]].
  { destruct (RI_init nv fs d H) as [[L1 L2] RW _ _]. split; auto. rewrite L1. apply (dc_nm _ _ _ H). }
  exists t. split; auto. intros v m k C. destruct (dc_range _ _ _ H _ _ _ C) as [R1 [R2 R3]]. unfold rd2. rewrite (rd_nth _ t m []) by lia. cbn [bind]. rewrite (rd_nth _ _ k 0) by (rewrite O2; auto).
  f_equal. apply V; auto.
Qed.

Lemma copies_len : forall d vs m idx, copies_of d vs m idx -> length vs = length idx.
Proof. intros d vs m idx H. unfold copies_of in H. induction H; cbn; auto. Qed.

Lemma unary_table_ok : forall d t, DC d -> (forall v m k, copy_of d v m k -> rd2 t m k = Ret v) -> exists u, unary_table d t = Ret u /\ length u = nv /\
  forall v f, nth v u None = Some f -> f < length fs /\ nth f fs [] = [v].
Proof.
  intros d t H T. unfold unary_table. set (g := fun u f => _). destruct (dc_nf _ _ _ H) as [F1 F2].
  assert (L : forall n, n <= length fs -> exists u, foldM g (seq 0 n) (repeat None (d_nv d)) = Ret u /\ length u = nv /\ forall v f, nth v u None = Some f -> f < length fs /\ nth f fs [] = [v]).
  { induction n as [|n IH]; intros Hn. { exists (repeat None (d_nv d)). rewrite (proj1 (dc_nv _ _ _ H)), repeat_length. repeat split; auto. - rewrite nth_repeat in H0. discriminate. - rewrite nth_repeat in H0. discriminate. }
    rewrite seq_S, foldM_app. destruct (IH ltac:(lia)) as [u [E [L1 V]]]. rewrite E. cbn [bind foldM]. unfold g at 1. cbn [plus]. rewrite (rd_nth _ (d_fl d) n []) by lia. cbn [bind].
    destruct (nth n (d_fl d) []) as [|s l] eqn:En. { cbn [bind]. eauto. }
    destruct (dc_factor _ _ _ H n s) as [A1 A2]. { rewrite En. cbn. auto. }
    destruct (s_idx s) as [|k [|k2 r]] eqn:Es; cbn [bind]; eauto.
    unfold copies_of in A2. inversion A2 as [|v ? ? ? C1 C2 Q1 Q2]; subst. inversion C2; subst. rewrite (T v _ _ C1). cbn [bind].
    destruct (dc_range _ _ _ H _ _ _ C1) as [R1 _]. rewrite wr_Ret by lia. cbn [bind]. eexists. split; [reflexivity|]. rewrite length_upd. split; auto.
    intros v' f. rewrite nth_upd by lia. destruct (Nat.eq_dec v v') as [<-|]; auto. intros Q. injection Q as <-. split; [lia|auto]. }
  rewrite F1. apply L. auto.
Qed.

(** [d'] has the same copies as [d] and at least its subfactors. *)
Definition grows (d d' : dec) : Prop :=
  d_vl d' = d_vl d /\ d_nsv d' = d_nsv d /\ d_nm d' = d_nm d /\
  (forall f, exists r, nth f (d_fl d') [] = nth f (d_fl d) [] ++ r /\ (r <> [] -> length (nth f fs []) = 1)) /\
  (forall key s, In s (el_at (d_el d) key) -> In s (el_at (d_el d') key)) /\
  (forall key l, In (key, l) (d_el d') -> In (key, l) (d_el d) \/ length key = 1).
Lemma grows_refl : forall d, grows d d.
Proof. intros d. repeat split; auto. intros f. exists []. rewrite app_nil_r. split; auto. tauto. Qed.
Lemma grows_trans : forall a b c, grows a b -> grows b c -> grows a c.
Proof.
  intros a b c [A1 [A2 [A3 [A4 [A5 A6]]]]] [B1 [B2 [B3 [B4 [B5 B6]]]]]. split; [congruence|]. split; [congruence|]. split; [congruence|]. split; [|split; [auto|]].
  2:{ intros key l I. destruct (B6 key l I); auto. }
  intros f. destruct (A4 f) as [r [R1 R2]], (B4 f) as [q [Q1 Q2]]. exists (r ++ q). rewrite Q1, R1, app_assoc. split; auto. intros N. destruct r; auto. apply R2. discriminate.
Qed.
Lemma grows_copy : forall d d' v m k, grows d d' -> (copy_of d v m k <-> copy_of d' v m k).
Proof. intros d d' v m k [E _]. unfold copy_of. rewrite E. tauto. Qed.
(** Copy (m,k) of v has a unary subfactor. *)
Definition reached (d : dec) (v : nat) (o : option nat) (m k : nat) : Prop :=
  exists s, In s (match o with Some f => nth f (d_fl d) [] | None => el_at (d_el d) [v] end) /\ s_model s = m /\ s_idx s = [k].
Lemma reached_grows : forall d d' v o m k, grows d d' -> reached d v o m k -> reached d' v o m k.
Proof.
  intros d d' v o m k [_ [_ [_ [G4 [G5 _]]]]] [s [S1 S2]]. exists s. split; auto. destruct o as [f|]; auto. destruct (G4 f) as [r [-> _]]. apply in_or_app. auto.
Qed.

Lemma req_insert_ok : forall d (v : nat) l r, (forall m k, In (m, k) l -> m < d_nm d) -> length r = d_nm d -> exists r', foldM req_insert l r = Ret r' /\ length r' = d_nm d /\
  (forall m k, In k (nth m r' []) <-> In k (nth m r []) \/ In (m, k) l).
Proof.
  intros d v. induction l as [|[m k] l IH]; intros r B L; cbn [foldM]. { exists r. repeat split; auto. intros [H|[]]; auto. }
  assert (Hm : m < d_nm d) by (eapply B; cbn; auto). unfold req_insert at 1. cbn [fst snd]. rewrite (rd_nth _ r m []) by lia. cbn [bind]. rewrite wr_Ret by lia. cbn [bind].
  destruct (IH (upd r m (set_insert (nth m r []) k))) as [r' [E [L' V]]]. { intros. apply (B m0 k0). cbn. auto. } { rewrite length_upd. auto. }
  exists r'. split; auto. split; auto. intros m' k'. rewrite V, nth_upd by lia. cbn [In].
  assert (SI : forall l x y, In y (set_insert l x) <-> In y l \/ y = x).
  { clear. induction l as [|z l IH]; intros x y; cbn [set_insert]. { cbn. intuition. } destruct (Nat.ltb_spec x z); [cbn; intuition|]. destruct (Nat.ltb_spec z x); cbn [In]; [rewrite IH; tauto|]. assert (x = z) by lia. subst. intuition. }
  destruct (Nat.eq_dec m m') as [<-|N].
  - rewrite SI. split; [intros [[H|H]|H]|intros [H|[H|H]]]; auto; try (left; auto; fail); try (injection H as ->; auto; fail); subst; right; left; auto.
  - split; [intros [H|H]|intros [H|[H|H]]]; auto. injection H as -> ->. tauto.
Qed.
Lemma req_erase_ok : forall d v l r, (forall s, In s l -> s_model s < d_nm d /\ copies_of d [v] (s_model s) (s_idx s)) -> length r = d_nm d -> exists r', foldM req_erase l r = Ret r' /\ length r' = d_nm d /\
  (forall m k, In k (nth m r' []) -> In k (nth m r [])) /\
  (forall m k, In k (nth m r []) -> In k (nth m r' []) \/ exists s, In s l /\ s_model s = m /\ s_idx s = [k]).
Proof.
  intros d v. induction l as [|s l IH]; intros r B L; cbn [foldM]. { exists r. repeat split; auto. }
  destruct (B s (or_introl eq_refl)) as [B1 B2]. assert (exists k, s_idx s = [k]) as [k Ek]. { unfold copies_of in B2. inversion B2 as [|? k ? ? ? C2]; subst. inversion C2; subst. eauto. }
  unfold req_erase at 1. rewrite Ek. cbn [rd nth_error bind]. rewrite (rd_Ret _ [k] 0 k) by reflexivity. cbn [bind]. rewrite (rd_nth _ r _ []) by lia. cbn [bind]. rewrite wr_Ret by lia. cbn [bind].
  destruct (IH (upd r (s_model s) (set_erase (nth (s_model s) r []) k))) as [r' [E [L' [V1 V2]]]]. { intros. apply B. cbn. auto. } { rewrite length_upd. auto. }
  exists r'. split; auto. split; auto. split.
  - intros m k' I. apply V1 in I. rewrite nth_upd in I by lia. destruct (Nat.eq_dec (s_model s) m) as [<-|]; auto. apply filter_In in I. tauto.
  - intros m k' I. destruct (Nat.eq_dec (s_model s) m) as [<-|N].
    + destruct (Nat.eq_dec k k') as [<-|N]. { right. exists s. cbn. auto. }
      destruct (V2 (s_model s) k') as [W|[s' [W1 W2]]]; auto. 2:{ right. exists s'. cbn. auto. }
      rewrite nth_upd by lia. destruct (Nat.eq_dec (s_model s) (s_model s)); [|lia]. apply filter_In. split; auto. apply negb_true_iff. apply Nat.eqb_neq. auto.
    + destruct (V2 m k') as [W|[s' [W1 W2]]]; auto. 2:{ right. exists s'. cbn. auto. } rewrite nth_upd by lia. destruct (Nat.eq_dec (s_model s) m); [lia|auto].
Qed.

Lemma add_loop : forall v o (add : dec -> nat -> nat -> outcome dec),
  (forall d m k, DC d -> copy_of d v m k -> exists d', add d m k = Ret d' /\ DC d' /\ grows d d' /\ reached d' v o m k) ->
  forall req d, DC d -> length req = d_nm d -> (forall m k, In k (nth m req []) -> copy_of d v m k) ->
  exists d', foldM (fun d m => s <- rd req m ;; foldM (fun d k => add d m k) s d) (seq 0 (d_nm d)) d = Ret d' /\ DC d' /\ grows d d' /\
    forall m k, In k (nth m req []) -> reached d' v o m k.
Proof.
  intros v o add H req d D L R.
  assert (IN : forall m l d, DC d -> (forall k, In k l -> copy_of d v m k) -> exists d', foldM (fun d k => add d m k) l d = Ret d' /\ DC d' /\ grows d d' /\ forall k, In k l -> reached d' v o m k).
  { intros m. induction l as [|k l IH]; intros d0 D0 C; cbn [foldM]. { exists d0. split; auto. split; auto. split; [apply grows_refl|]. intros k []. }
    destruct (H d0 m k D0 (C k (or_introl eq_refl))) as [d1 [E1 [D1 [G1 R1]]]]. rewrite E1. cbn [bind].
    destruct (IH d1 D1) as [d2 [E2 [D2 [G2 R2]]]]. { intros k' I. apply (grows_copy d0 d1); auto. apply C. cbn. auto. }
    exists d2. split; auto. split; auto. split; [eapply grows_trans; eauto|]. intros k' [<-|I]; auto. eapply reached_grows; eauto. }
  assert (Q : forall n, n <= d_nm d -> exists d', foldM (fun d m => s <- rd req m ;; foldM (fun d k => add d m k) s d) (seq 0 n) d = Ret d' /\ DC d' /\ grows d d' /\
    forall m k, m < n -> In k (nth m req []) -> reached d' v o m k).
  { induction n as [|n IH]; intros Hn. { exists d. split; auto. split; auto. split; [apply grows_refl|]. intros. lia. }
    destruct (IH ltac:(lia)) as [d1 [E1 [D1 [G1 R1]]]]. rewrite seq_S, foldM_app, E1. cbn [bind foldM plus]. rewrite (rd_nth _ req n []) by lia. cbn [bind].
    destruct (IN n (nth n req []) d1 D1) as [d2 [E2 [D2 [G2 R2]]]]. { intros k I. apply (grows_copy d d1); auto. }
    rewrite E2. cbn [bind]. exists d2. split; auto. split; auto. split; [eapply grows_trans; eauto|]. intros m k Hm I. destruct (Nat.eq_dec m n) as [->|]; auto. eapply reached_grows; eauto. apply R1; auto. lia. }
  destruct (Q (d_nm d) ltac:(lia)) as [d' [E [D' [G R']]]]. exists d'. split; auto. split; auto. split; auto. intros m k I. apply R'; auto. pose proof (nth_In_lt _ _ _ _ I). lia.
Qed.

Lemma complete_variable_ok : forall u d v, DC d -> length u = nv -> (forall v f, nth v u None = Some f -> f < length fs /\ nth f fs [] = [v]) -> v < nv ->
  exists d', complete_variable u d v = Ret d' /\ DC d' /\ grows d d' /\ (1 < length (nth v (d_vl d) []) -> forall m k, copy_of d v m k -> reached d' v (nth v u None) m k).
Proof.
  intros u d v D Lu U Hv. unfold complete_variable. destruct (dc_nv _ _ _ D) as [N1 N2]. rewrite (rd_nth _ (d_vl d) v []) by lia. cbn [bind].
  destruct (Nat.ltb_spec 1 (length (nth v (d_vl d) []))) as [H1|H1]. 2:{ exists d. split; auto. split; auto. split; [apply grows_refl|]. lia. }
  destruct (req_insert_ok d v (nth v (d_vl d) []) (repeat [] (d_nm d))) as [r [E [L V]]]. { intros m k I. apply (dc_range _ _ _ D _ _ _ I). } { apply repeat_length. }
  rewrite E. cbn [bind]. assert (V' : forall m k, In k (nth m r []) <-> copy_of d v m k).
  { intros m k. rewrite V. unfold copy_of. split; auto. intros [I|I]; auto. exfalso. destruct (Nat.lt_ge_cases m (d_nm d)); [rewrite nth_repeat in I|rewrite nth_overflow in I by (rewrite repeat_length; lia)]; auto. }
  clear V. rewrite (rd_nth _ u v None) by lia. cbn [bind]. destruct (nth v u None) as [f|] eqn:Eu.
  - destruct (U v f Eu) as [Hf Ef]. rewrite (rd_nth _ (d_fl d) f []) by (rewrite (proj2 (dc_nf _ _ _ D)); lia). cbn [bind].
    destruct (req_erase_ok d v (nth f (d_fl d) []) r) as [r' [E' [L' [W1 W2]]]]; auto. { intros s I. rewrite <- Ef. apply (dc_factor _ _ _ D); auto. }
    rewrite E'. cbn [bind].
    destruct (add_loop v (Some f) (fun d m k => '(d, _) <- addSubFactor d m f [k] ;; Ret d)) with (req := r') (d := d) as [d' [Q1 [Q2 [Q3 Q4]]]]; auto.
    { clear - Hf Ef. intros d m k D C. destruct (addSubFactor_ok nv fs d m f [k] D) as [d' [i [A1 [A2 [A3 [A4 [A5 [A6 [A7 A8]]]]]]]]]; auto.
      { apply (dc_range _ _ _ D _ _ _ C). } { rewrite Ef. repeat constructor; auto. }
      rewrite A1. cbn [bind]. exists d'. split; auto. split; auto. assert (Lf : f < length (d_fl d)) by (rewrite (proj2 (dc_nf _ _ _ D)); auto). split.
      - split; auto. split; auto. split; auto. split; [|rewrite A7; auto]. intros g. rewrite A8, nth_upd by auto. destruct (Nat.eq_dec f g) as [<-|]. { eexists. split; [reflexivity|]. rewrite Ef. auto. } exists []. rewrite app_nil_r. split; auto. tauto.
      - eexists. cbn beta iota. rewrite A8, nth_upd_eq by auto. split; [apply in_or_app; right; left; reflexivity|]. auto. }
    { intros m k I. apply V'. apply W1. auto. }
    exists d'. split; auto. split; auto. split; auto. intros _ m k C. apply V' in C. destruct (W2 m k C) as [W|[s [S1 S2]]]; auto. exists s. split; auto. destruct Q3 as [_ [_ [_ [G _]]]]. destruct (G f) as [q [-> _]]. apply in_or_app. auto.
  - destruct (req_erase_ok d v (el_at (d_el d) [v]) r) as [r' [E' [L' [W1 W2]]]]; auto.
    { intros s I. destruct (el_at_In (d_el d) [v]) as [Z|Z]. { rewrite Z in I. destruct I. } eapply (dc_empty _ _ _ D); eauto. }
    rewrite E'. cbn [bind]. set (d1 := set_el d (el_push (d_el d) [v] [])).
    assert (G1 : grows d d1). { split; auto. split; auto. split; auto. split; [|split]. { intros f. exists []. rewrite app_nil_r. split; auto. tauto. } 2:{ intros key l I. destruct (el_push_key _ _ _ _ _ I) as [I1| ->]; auto. } intros key s I. unfold d1. cbn [d_el set_el]. destruct (list_eq_dec Nat.eq_dec key [v]) as [->|N]; [rewrite el_at_push_eq, app_nil_r; auto|rewrite el_at_push_neq; auto]. }
    destruct (add_loop v None (fun d m k => '(d, _) <- addSubFactor_empty d m [v] [k] ;; Ret d)) with (req := r') (d := d1) as [d' [Q1 [Q2 [Q3 Q4]]]]; auto.
    { clear. intros d m k D C. destruct (addSubFactor_empty_ok nv fs d m [v] [k] D) as [d' [i [A1 [A2 [A3 [A4 [A5 [A6 [A7 A8]]]]]]]]]; auto.
      { apply (dc_range _ _ _ D _ _ _ C). } { repeat constructor; auto. }
      rewrite A1. cbn [bind]. exists d'. split; auto. split; auto. split.
      - split; auto. split; auto. split; auto. split; [|split]. { rewrite A8. intros f. exists []. rewrite app_nil_r. split; auto. tauto. } 2:{ intros key l I. rewrite A7 in I. destruct (el_push_key _ _ _ _ _ I) as [I1| ->]; auto. } intros key s I. rewrite A7. destruct (list_eq_dec Nat.eq_dec key [v]) as [->|N]; [rewrite el_at_push_eq; apply in_or_app; auto|rewrite el_at_push_neq; auto].
      - eexists. cbn beta iota. rewrite A7, el_at_push_eq. split; [apply in_or_app; right; left; reflexivity|]. auto. }
    { apply touch_ok. auto. }
    { intros m k I. apply (grows_copy d d1 v m k G1). apply V'. apply W1. auto. }
    exists d'. split; auto. split; auto. split; [eapply grows_trans; eauto|]. intros _ m k C. apply V' in C. destruct (W2 m k C) as [W|[s [S1 S2]]]; auto. exists s. split; auto.
    destruct (grows_trans _ _ _ G1 Q3) as [_ [_ [_ [_ [G _]]]]]. auto.
Qed.

Lemma complete_ok : forall d, DC d -> exists d', complete d = Ret d' /\ DC d' /\ grows d d' /\ completed fs d'.
Proof.
  intros d D. unfold complete. destruct (real_table_ok d D) as [t [E T]]. rewrite E. cbn [bind]. destruct (unary_table_ok d t D T) as [u [E2 [L U]]]. rewrite E2. cbn [bind]. rewrite (proj1 (dc_nv _ _ _ D)).
  assert (Q : forall n, n <= nv -> exists d', foldM (complete_variable u) (seq 0 n) d = Ret d' /\ DC d' /\ grows d d' /\
    forall v, v < n -> 1 < length (nth v (d_vl d) []) -> forall m k, copy_of d v m k -> reached d' v (nth v u None) m k).
  { induction n as [|n IH]; intros Hn. { exists d. split; auto. split; auto. split; [apply grows_refl|]. intros. lia. }
    destruct (IH ltac:(lia)) as [d1 [E1 [D1 [G1 R1]]]]. rewrite seq_S, foldM_app, E1. cbn [bind foldM plus].
    destruct (complete_variable_ok u d1 n D1 L U ltac:(lia)) as [d2 [F1 [D2 [G2 R2]]]]. rewrite F1. cbn [bind]. exists d2. split; auto. split; auto. split; [eapply grows_trans; eauto|].
    intros v Hv C m k I. destruct (Nat.eq_dec v n) as [->|]; [|eapply reached_grows; eauto; apply R1; auto; lia]. apply R2; [rewrite (proj1 G1); auto|]. apply (grows_copy d d1); auto. }
  destruct (Q nv ltac:(lia)) as [d' [F [D' [G R]]]]. exists d'. split; auto. split; auto. split; auto. intros v C.
  assert (Hv : v < nv). { rewrite <- (proj2 (dc_nv _ _ _ D')). destruct (Nat.lt_ge_cases v (length (d_vl d'))); auto. rewrite nth_overflow in C by auto. cbn in C. lia. }
  rewrite (proj1 G) in C.
  assert (RR : forall m k, copy_of d' v m k -> reached d' v (nth v u None) m k). { intros m k I. apply R; auto. apply (grows_copy d d'); auto. }
  destruct (nth v u None) as [f|] eqn:Eu.
  - exists (nth f (d_fl d') []). destruct (U v f Eu). split; [|exact RR]. left. exists f. auto.
  - exists (el_at (d_el d') [v]). split; [|exact RR]. right. destruct (el_at_In (d_el d') [v]) as [Z|Z]; auto. exfalso.
    rewrite <- (proj1 G) in C. destruct (nth v (d_vl d') []) as [|[m k] l] eqn:En; [cbn in C; lia|]. destruct (RR m k) as [s [S1 _]]. { unfold copy_of. rewrite En. cbn. auto. } cbn beta iota in S1. rewrite Z in S1. destruct S1.
Qed.

Lemma isValid_ok : forall d, DC d -> exists b, isValid d nv fs = Ret b /\ (b = true <-> covers nv fs d).
Proof.
  intros d D. unfold isValid. destruct (dc_nv _ _ _ D) as [N1 N2], (dc_nf _ _ _ D) as [F1 F2]. rewrite N2, F2, !Nat.eqb_refl. cbn [andb].
  assert (Q1 : forall n, n <= nv -> exists b, foldM (fun ret i => l <- rd (d_vl d) i ;; Ret (ret && negb (length l =? 0))) (seq 0 n) true = Ret b /\ (b = true <-> forall v, v < n -> nth v (d_vl d) [] <> [])).
  { induction n as [|n IH]; intros Hn. { exists true. split; auto. split; auto. intros. lia. } destruct (IH ltac:(lia)) as [b [E V]]. rewrite seq_S, foldM_app, E. cbn [bind foldM plus]. rewrite (rd_nth _ (d_vl d) n []) by lia. cbn [bind].
    eexists. split; [reflexivity|]. rewrite andb_true_iff, V, negb_true_iff, Nat.eqb_neq. split.
    - intros [A B] v Hv. destruct (Nat.eq_dec v n) as [->|]; [|apply A; lia]. intros Z. rewrite Z in B. auto.
    - intros A. split; [intros; apply A; lia|]. intros Z. apply (A n); auto. apply length_zero_iff_nil. auto. }
  destruct (Q1 nv ltac:(lia)) as [b [E V]]. rewrite E. cbn [bind]. clear Q1 E.
  assert (Q2 : forall n, n <= length fs -> exists b', foldM (fun ret i => l <- rd (d_fl d) i ;; vs <- rd fs i ;; Ret (ret && negb (length l =? 0) && forallb (fun s => length (s_idx s) =? length vs) l)) (seq 0 n) b = Ret b' /\
     (b' = true <-> b = true /\ forall f, f < n -> nth f (d_fl d) [] <> [])).
  { induction n as [|n IH]; intros Hn. { exists b. split; auto. intuition lia. } destruct (IH ltac:(lia)) as [b' [E V']]. rewrite seq_S, foldM_app, E. cbn [bind foldM plus]. rewrite (rd_nth _ (d_fl d) n []), (rd_nth _ fs n []) by lia. cbn [bind].
    eexists. split; [reflexivity|].
    assert (FB : forallb (fun s => length (s_idx s) =? length (nth n fs [])) (nth n (d_fl d) []) = true).
    { apply forallb_forall. intros s I. destruct (dc_factor _ _ _ D n s I) as [_ A]. apply Nat.eqb_eq. symmetry. eapply copies_len; eauto. }
    rewrite FB, andb_true_r, andb_true_iff, V', negb_true_iff, Nat.eqb_neq. split.
    - intros [[A B] C]. split; auto. intros f Hf. destruct (Nat.eq_dec f n) as [->|]; [|apply B; lia]. intros Z. rewrite Z in C. auto.
    - intros [A B]. split; [split; auto; intros; apply B; lia|]. intros Z. apply (B n); auto. apply length_zero_iff_nil. auto. }
  destruct (Q2 (length fs) ltac:(lia)) as [b' [E V']]. exists b'. split; auto. rewrite V', V. unfold covers. tauto.
Qed.
End C.
