(** Proofs about GraphicalModelDecomposer: decomposeIntoTree and decomposeIntoSpanningTrees. *)
From Coq Require Import Sorted Permutation Relations.
From Verif Require Import Base PartitionModel UnionFind PartitionProofs FactorGraphModel FactorGraphSpec DecompModel DecompSpec DecompProofs DecompReorder DecompComplete DecompBuild DecompForest.
#[local] Arguments nth_error : simpl never.

Lemma bump_spec : forall c key c' n, bump c key = (c', n) -> Forall (fun e => 0 < snd e) c -> (1 < n <-> In key (map fst c)) /\ Forall (fun e => 0 < snd e) c' /\ forall x, In x (map fst c') <-> In x (map fst c) \/ x = key.
Proof.
  induction c as [|[k m] c IH]; intros key c' n H F; cbn [bump] in H.
  - injection H as <- <-. cbn. repeat split; auto; try lia; intuition.
  - inversion F; subst. cbn in H2. destruct (Nat.eqb_spec k key) as [->|N].
    + injection H as <- <-. cbn. split; [split; [auto|lia]|]. split; [constructor; cbn; auto; lia|]. intros x. intuition.
    + destruct (bump c key) as [t r] eqn:B. injection H as <- <-. destruct (IH key t r B H3) as [A1 [A2 A3]]. cbn. split; [rewrite A1; intuition|]. split; [constructor; auto|]. intros x. rewrite A3. tauto.
Qed.

Lemma connected_incl : forall p q x y, (forall a b, In (a, b) p -> connected q a b) -> connected p x y -> connected q x y.
Proof. intros p q x y H C. induction C; [auto|apply connected_refl|apply connected_sym; auto|eapply connected_trans; eauto]. Qed.

Section T.
Variable nv : nat.
Variable fs : list (list nat).
Hypothesis WF : Forall (fun vs => StronglySorted lt vs /\ Forall (fun v => v < nv) vs) fs.
Notation DC := (decomposes nv fs).
Notation nf := (length fs).

Lemma vars_nodup : forall f, NoDup (nth f fs []).
Proof.
  intros f. destruct (Nat.lt_ge_cases f nf) as [L|L]; [|rewrite nth_overflow by auto; constructor]. rewrite Forall_forall in WF. destruct (WF (nth f fs []) (nth_In _ _ L)) as [S _].
  induction S as [|a l S IH F]; constructor; auto. intros I. rewrite Forall_forall in F. specialize (F a I). lia.
Qed.

Lemma merge_all_ok : forall p pairs vs, PInv p nv pairs -> (forall v, In v vs -> v < nv) -> exists p' pairs', merge_all p vs = Ret p' /\ PInv p' nv pairs' /\
  (forall a b, connected pairs a b -> connected pairs' a b) /\ (forall a b, In a vs -> In b vs -> connected pairs' a b).
Proof.
  intros p pairs vs HP B. unfold merge_all.
  assert (Q : forall n, n <= length vs - 1 -> exists p' pairs', foldM (fun p j => a <- rd vs (j - 1) ;; b <- rd vs j ;; part_merge p a b) (seq 1 n) p = Ret p' /\ PInv p' nv pairs' /\
     (forall a b, connected pairs a b -> connected pairs' a b) /\ (forall i, i <= n -> connected pairs' (nth 0 vs 0) (nth i vs 0))).
  { induction n as [|n IH]; intros Hn. { exists p, pairs. cbn [seq foldM]. split; auto. split; auto. split; auto. intros i Hi. replace i with 0 by lia. apply connected_refl. }
    destruct (IH ltac:(lia)) as [p1 [q1 [E1 [P1 [M1 C1]]]]]. rewrite seq_S, foldM_app, E1. cbn [bind foldM plus]. rewrite Nat.sub_succ, Nat.sub_0_r.
    rewrite (rd_nth _ vs n 0) by lia. cbn [bind]. rewrite (rd_nth _ vs (S n) 0) by lia. cbn [bind].
    destruct (PInv_merge p1 nv q1 (nth n vs 0) (nth (S n) vs 0) P1) as [p2 [E2 P2]]. { apply B, nth_In. lia. } { apply B, nth_In. lia. } rewrite E2. cbn [bind].
    assert (INC : forall a b, connected q1 a b -> connected ((nth n vs 0, nth (S n) vs 0) :: q1) a b). { intros a b. apply connected_incl. intros. apply rst_step. right. auto. }
    exists p2, ((nth n vs 0, nth (S n) vs 0) :: q1). split; auto. split; auto. split; auto. intros i Hi. destruct (Nat.eq_dec i (S n)) as [->|]. { eapply connected_trans; [apply INC; apply C1; auto|]. apply rst_step. left. auto. } apply INC. apply C1. lia. }
  destruct (Q (length vs - 1) (le_n _)) as [p' [pairs' [E [P' [M C]]]]]. exists p', pairs'. split; auto. split; auto. split; auto.
  assert (C' : forall a, In a vs -> connected pairs' (nth 0 vs 0) a). { intros a I. apply (In_nth _ _ 0) in I. destruct I as [i [I1 <-]]. apply C. lia. }
  intros a b Ia Ib. eapply connected_trans; [apply connected_sym|]; apply C'; auto.
Qed.

Lemma root_class : forall p pairs a b r s, PInv p nv pairs -> Root (parents p) a r -> Root (parents p) b s -> (r = s <-> connected pairs a b).
Proof. intros p pairs a b r s H. apply (pi_agrees _ _ _ H). Qed.

(** ** decomposeIntoSpanningTrees: can a factor be inserted? *)
Lemma fits_in_ok : forall pairs vs p c, PInv p nv pairs -> (forall v, In v vs -> v < nv) -> Forall (fun e => 0 < snd e) c ->
  exists p' ins rs, fits_in p c vs = Ret (p', ins) /\ PInv p' nv pairs /\ (forall z s, Root (parents p') z s <-> Root (parents p) z s) /\ Forall2 (Root (parents p)) vs rs /\
    (ins = true <-> NoDup rs /\ forall r, In r rs -> ~ In r (map fst c)).
Proof.
  intros pairs. induction vs as [|v vs IH]; intros p c HP B F; cbn [fits_in].
  { exists p, true, []. split; auto. split; auto. split; [tauto|]. split; [constructor|]. split; auto. intros _. split; [constructor|]. intros r []. }
  destruct (PInv_find p nv pairs v HP (B v (or_introl eq_refl))) as [p1 [r [E1 [P1 [R1 [_ S1]]]]]]. rewrite E1. cbn [bind]. destruct (bump c r) as [c' n] eqn:EB. destruct (bump_spec _ _ _ _ EB F) as [B1 [B2 B3]].
  destruct (IH p1 c' P1) as [p2 [ins [rs [E2 [P2 [S2 [F2 I2]]]]]]]; auto. { intros. apply B. cbn. auto. }
  assert (F2' : Forall2 (Root (parents p)) vs rs). { clear - F2 S1. induction F2; constructor; auto. apply S1. auto. }
  destruct (Nat.ltb_spec 1 n) as [L|L].
  - exists p1, false, (r :: rs). split; auto. split; auto. split; auto. split; [constructor; auto|]. split; [discriminate|]. intros [_ N]. exfalso. apply (N r). { left. auto. } apply B1. auto.
  - exists p2, ins, (r :: rs). split; auto. split; auto. split. { intros. rewrite S2. auto. } split; [constructor; auto|]. rewrite I2. split.
    + intros [N1 N2]. split. * constructor; auto. intros I. apply (N2 r I). apply B3. auto. * intros x [<-|I]. { rewrite <- B1. lia. } intros J. apply (N2 x I). apply B3. auto.
    + intros [N1 N2]. inversion N1; subst. split; auto. intros x I J. apply B3 in J. destruct J as [J| ->]; auto. apply (N2 x); auto. right. auto.
Qed.

Lemma roots_nodup : forall p pairs vs rs, PInv p nv pairs -> Forall2 (Root (parents p)) vs rs -> NoDup rs -> forall a b, In a vs -> In b vs -> connected pairs a b -> a = b.
Proof.
  intros p pairs vs rs HP F. induction F as [|v r vs rs R F IH]; intros ND a b Ia Ib C; [destruct Ia|]. inversion ND as [|? ? N1 N2]; subst.
  assert (X : forall w, In w vs -> connected pairs v w -> False).
  { intros w Iw Cw. apply N1. clear - HP R F Iw Cw. induction F as [|u s vs rs R' F IH]; [destruct Iw|]. destruct Iw as [->|Iw]; [|right; auto]. left. symmetry. apply (root_class p pairs v w r s HP); auto. }
  destruct Ia as [<-|Ia], Ib as [<-|Ib]; auto. { exfalso. eapply X; eauto. } exfalso. eapply X; eauto. apply connected_sym. auto.
Qed.
Lemma roots_distinct : forall p pairs vs rs, PInv p nv pairs -> Forall2 (Root (parents p)) vs rs -> NoDup vs -> (forall a b, connected pairs a b -> a = b) -> NoDup rs.
Proof.
  intros p pairs vs rs HP F ND H. induction F as [|v r vs rs R F IH]; constructor; inversion ND; subst; auto.
  intros I. assert (X : exists w, In w vs /\ Root (parents p) w r). { clear - F I. induction F as [|u s vs rs R F IH]; [destruct I|]. destruct I as [->|I]. { exists u. cbn. auto. } destruct (IH I) as [w [W1 W2]]. exists w. cbn. auto. }
  destruct X as [w [W1 W2]]. assert (v = w). { apply H. apply (root_class p pairs v w r r); auto. } subst. auto.
Qed.

(** ** the subfactors of a submodel *)
Lemma perm_concat_upd : forall A (l : list (list A)) f x, f < length l -> Permutation (concat (upd l f (nth f l [] ++ [x]))) (concat l ++ [x]).
Proof.
  intros A. induction l as [|a l IH]; intros [|f] x L; cbn in L; try lia.
  - cbn. rewrite <- !app_assoc. apply Permutation_app_head. apply Permutation_app_comm.
  - cbn. rewrite <- app_assoc. apply Permutation_app_head. apply IH. lia.
Qed.
Lemma perm_filter : forall A (p : A -> bool) l l', Permutation l l' -> Permutation (filter p l) (filter p l').
Proof. intros A p l l' P. induction P; cbn [filter]; auto. - destruct (p x); auto. - destruct (p x), (p y); auto. apply perm_swap. - eapply perm_trans; eauto. Qed.
Lemma sub_factors_add : forall d d' f m k idx m', f < length (d_fl d) -> d_el d' = d_el d -> d_fl d' = upd (d_fl d) f (nth f (d_fl d) [] ++ [mkSub m k idx]) ->
  Permutation (sub_factors d' m') (sub_factors d m' ++ (if m =? m' then [idx] else [])).
Proof.
  intros d d' f m k idx m' L EL FL. unfold sub_factors. rewrite EL, FL.
  assert (Q : Permutation (concat (upd (d_fl d) f (nth f (d_fl d) [] ++ [mkSub m k idx])) ++ concat (map snd (d_el d))) ((concat (d_fl d) ++ concat (map snd (d_el d))) ++ [mkSub m k idx])).
  { rewrite (perm_concat_upd _ (d_fl d) f _ L). rewrite <- !app_assoc. apply Permutation_app_head. apply Permutation_app_comm. }
  apply (perm_filter _ (fun s => s_model s =? m')) in Q. apply (Permutation_map s_idx) in Q. rewrite Q. rewrite filter_app, map_app. cbn [filter s_model]. destruct (m =? m'); auto.
Qed.
Lemma sub_factors_same : forall d d' m, d_el d' = d_el d -> d_fl d' = d_fl d -> sub_factors d' m = sub_factors d m.
Proof. intros d d' m E F. unfold sub_factors. rewrite E, F. auto. Qed.
Lemma sub_factors_new : forall n m, sub_factors (dec_new nv nf n) m = [].
Proof. intros n m. unfold sub_factors, dec_new. cbn [d_fl d_el map concat]. rewrite app_nil_r. induction nf; cbn; auto. Qed.
Lemma sub_factors_In : forall d m vs, In vs (sub_factors d m) -> exists s, s_model s = m /\ s_idx s = vs /\ ((exists f, In s (nth f (d_fl d) [])) \/ exists key l, In (key, l) (d_el d) /\ In s l).
Proof.
  intros d m vs I. unfold sub_factors in I. apply in_map_iff in I. destruct I as [s [S1 S2]]. apply filter_In in S2. destruct S2 as [S2 S3]. apply Nat.eqb_eq in S3. exists s. split; auto. split; auto. apply in_app_iff in S2. destruct S2 as [S2|S2]; apply in_concat in S2; destruct S2 as [l [L1 L2]].
  - left. apply (In_nth _ _ []) in L1. destruct L1 as [f [_ <-]]. eauto.
  - right. apply in_map_iff in L1. destruct L1 as [[key l'] [<- L1]]. eauto.
Qed.
Lemma sub_factors_range : forall d m vs k, DC d -> In vs (sub_factors d m) -> In k vs -> k < nth m (d_nsv d) 0.
Proof.
  intros d m vs k D I J. destruct (sub_factors_In d m vs I) as [s [<- [<- H]]]. assert (C : exists us, copies_of d us (s_model s) (s_idx s)).
  { destruct H as [[f H]|[key [l [H1 H2]]]]. { apply (dc_factor _ _ _ D) in H. eexists. apply H. } eexists. apply (dc_empty _ _ _ D _ _ _ H1 H2). }
  destruct C as [us C]. clear H I. induction C as [|u x us idx H C IH]; [destruct J|]. destruct J as [<-|J]; auto. apply (dc_range _ _ _ D _ _ _ H).
Qed.

(** Adding a factor whose variables are in different components. *)
Definition tied (L : list (list nat)) (pairs : list (nat * nat)) : Prop := acyc L /\ forall u v, u < nv -> v < nv -> linked L u v -> connected pairs u v.

Lemma tied_add : forall L L' pairs pairs' vs idx n, tied L pairs -> Permutation L' (L ++ [idx]) -> nv <= n -> (forall us k, In us L -> In k us -> k < n) ->
  (forall k, In k idx -> (k < nv /\ In k vs) \/ n <= k) -> (forall a b, In a idx -> In b idx -> a < nv -> b < nv -> connected pairs a b -> a = b) ->
  (forall a b, connected pairs a b -> connected pairs' a b) -> (forall a b, In a vs -> In b vs -> connected pairs' a b) -> tied L' pairs'.
Proof.
  intros L L' pairs pairs' vs idx n [A T] P N R I S M C.
  assert (AL : forall k, n <= k -> forall us, In us L -> ~ In k us). { intros k Hk us U J. specialize (R us k U J). lia. }
  split.
  - apply (acyc_perm (L ++ [idx])); [symmetry; auto|]. apply acyc_app; auto. intros a b Ia Ib Lk. destruct (I a Ia) as [[Ha Va]|Ha]; [|eapply linked_alone; eauto]. destruct (I b Ib) as [[Hb Vb]|Hb]; [|symmetry; eapply linked_alone; eauto]. apply S; auto.
  - intros u v Hu Hv Lk. apply (linked_perm (L ++ [idx])) in Lk; [|symmetry; auto]. apply linked_app in Lk. destruct Lk as [Lk|[a [b [Ia [Ib [L1 L2]]]]]]; auto.
    assert (X : forall w c, w < nv -> In c idx -> linked L w c -> c < nv /\ In c vs). { intros w c Hw Ic Lw. destruct (I c Ic) as [|Hc]; auto. exfalso. assert (c = w) by (eapply linked_alone; eauto). lia. }
    destruct (X u a Hu Ia L1), (X v b Hv Ib L2). eapply connected_trans; [apply M, (T u a); auto|]. eapply connected_trans; [apply C; eauto|]. apply connected_sym. apply M, (T v b); auto.
Qed.
Lemma tied_nil : tied [] [].
Proof. split; [apply acyc_nil|]. intros u v _ _ H. apply linked_nil in H. subst. apply connected_refl. Qed.

(** ** decomposeIntoSpanningTrees *)
(** The variables of the submodel are those of the model. *)
Lemma all_variables_ok : forall d m, DC d -> m < d_nm d -> nth m (d_nsv d) 0 = 0 -> (forall v k, ~ copy_of d v m k) ->
  exists d', foldM (fun d v => '(d, _) <- addSubVariable d m v ;; Ret d) (seq 0 nv) d = Ret d' /\ DC d' /\ extends d d' /\ d_fl d' = d_fl d /\ d_el d' = d_el d /\ d_nm d' = d_nm d /\ nth m (d_nsv d') 0 = nv /\
    (forall v m' k, copy_of d' v m' k <-> copy_of d v m' k \/ (m' = m /\ k = v /\ v < nv)).
Proof.
  intros d m D M Z NC.
  destruct (foldM_seq_ind nat dec (fun n d' => DC d' /\ extends d d' /\ d_fl d' = d_fl d /\ d_el d' = d_el d /\ d_nm d' = d_nm d /\ nth m (d_nsv d') 0 = n /\
     (forall v m' k, copy_of d' v m' k <-> copy_of d v m' k \/ (m' = m /\ k = v /\ v < n))) (fun d v => '(d, _) <- addSubVariable d m v ;; Ret d) (seq 0 nv) 0 d) as [d' [E [A1 [A2 [A3 [A4 [A5 [A6 A7]]]]]]]].
  - split; auto. split; [apply extends_refl|]. split; auto. split; auto. split; auto. split; auto. intros v m' k. split; auto. intros [H|H]; auto. lia.
  - intros i a d1 Hi [A1 [A2 [A3 [A4 [A5 [A6 A7]]]]]]. apply nth_error_seq0 in Hi. destruct Hi as [-> Hi]. cbn [plus] in *.
    destruct (addSubVariable_ok nv fs d1 m i A1 ltac:(lia) Hi) as [d2 [E2 [D2 [X2 [C2 [N1 [N2 [N3 [N4 [N5 N6]]]]]]]]]]. rewrite E2. cbn [bind]. exists d2. split; auto. split; auto. split; [eapply extends_trans; eauto|]. split; [congruence|]. split; [congruence|]. split; [congruence|]. split.
    + rewrite N5. destruct (Nat.eq_dec m m); [congruence|lia].
    + intros v m' k. split.
      * intros Q. destruct (N6 _ _ _ Q) as [Q1|[-> [-> ->]]]. { apply A7 in Q1. destruct Q1 as [Q1|Q1]; auto. right. intuition. } right. split; auto.
      * intros [Q|[-> [-> Q]]]. { apply X2. apply A7. auto. } destruct (Nat.eq_dec v i) as [->|]. { rewrite A6 in C2. auto. } apply X2. apply A7. right. split; auto. split; auto. lia.
  - rewrite seq_length in *. exists d'. auto 10.
Qed.

(** Invariant of the two passes over the lists. *)
Record SP (d0 : dec) (m : nat) (d : dec) (p : partition) (pairs : list (nat * nat)) : Prop := {
  sp_dc : DC d;
  sp_nm : d_nm d = S m;
  sp_vl : d_vl d = d_vl d0;
  sp_nsv : d_nsv d = d_nsv d0;
  sp_el : d_el d = d_el d0;
  sp_part : PInv p nv pairs;
  sp_tied : tied (sub_factors d m) pairs;
  sp_rest : forall m', m' <> m -> Permutation (sub_factors d m') (sub_factors d0 m');
  sp_ext : extends d0 d }.

Lemma span_factor_ok : forall d0 m white d p pairs kept gray f, SP d0 m d p pairs -> (forall v, v < nv -> copy_of d0 v m v) -> nth m (d_nsv d0) 0 = nv -> f < nf ->
  exists d' p' pairs' kept' gray', span_factor fs white m (d, p, kept, gray) f = Ret (d', p', kept', gray') /\ SP d0 m d' p' pairs' /\
    ((white = true /\ ((kept' = kept /\ gray' = gray ++ [f] /\ nth f (d_fl d') [] <> []) \/ (kept' = kept ++ [f] /\ gray' = gray /\ exists a b, In a (nth f fs []) /\ In b (nth f fs []) /\ a <> b /\ connected pairs a b))) \/
     (white = false /\ kept' = kept ++ [f] /\ gray' = gray)).
Proof.
  intros d0 m white d p pairs kept gray f [D N V NS EL P T RS X] C Z Hf. unfold span_factor. rewrite (rd_nth _ fs f []) by auto. cbn [bind].
  assert (B : forall v, In v (nth f fs []) -> v < nv) by (intros; eapply (var_lt nv fs WF); eauto).
  destruct (fits_in_ok pairs (nth f fs []) p [] P B (Forall_nil _)) as [p1 [ins [rs [E1 [P1 [R1 [F1 I1]]]]]]]. rewrite E1. cbn [bind]. destruct ins.
  - destruct (proj1 I1 eq_refl) as [ND _]. assert (Lf : f < length (d_fl d)) by (rewrite (proj2 (dc_nf _ _ _ D)); auto).
    destruct (addSubFactor_ok nv fs d m f (nth f fs []) D) as [d2 [k [E2 [D2 [X2 [V2 [NS2 [N2 [EL2 FL2]]]]]]]]]; auto. { lia. }
    { assert (Q : forall l, (forall v, In v l -> v < nv) -> copies_of d l m l). { clear - C V. induction l as [|v l IH]; intros H; constructor. - unfold copy_of. rewrite V. apply C. apply H. left. auto. - apply IH. intros. apply H. right. auto. } apply Q. auto. }
    rewrite E2. cbn [bind]. destruct (merge_all_ok p1 pairs (nth f fs []) P1 B) as [p3 [pairs3 [E3 [P3 [M3 C3]]]]]. rewrite E3. cbn [bind].
    assert (G : SP d0 m d2 p3 pairs3).
    { split; auto; try congruence.
      - eapply tied_add with (L := sub_factors d m) (vs := nth f fs []) (idx := nth f fs []) (n := nv); eauto.
        + pose proof (sub_factors_add d d2 f m (Some k) (nth f fs []) m Lf EL2 FL2) as Q. rewrite Nat.eqb_refl in Q. auto.
        + intros us k' U J. rewrite <- Z, <- NS. eapply sub_factors_range; eauto.
        + intros a b Ia Ib _ _ Cab. eapply (roots_nodup p pairs); eauto.
      - intros m' Hm. rewrite (sub_factors_add d d2 f m (Some k) (nth f fs []) m' Lf EL2 FL2). destruct (Nat.eqb_spec m m'); [lia|]. rewrite app_nil_r. auto.
      - eapply extends_trans; eauto. }
    destruct white.
    + exists d2, p3, pairs3, kept, (gray ++ [f]). split; auto. split; auto. left. split; auto. left. split; auto. split; auto. rewrite FL2, nth_upd by auto. destruct (Nat.eq_dec f f); [|lia]. destruct (nth f (d_fl d) []); discriminate.
    + exists d2, p3, pairs3, (kept ++ [f]), gray. split; auto.
  - exists d, p1, pairs, (kept ++ [f]), gray. split; [destruct white; auto|]. split; [split; auto|]. destruct white; [left|right; auto]. split; auto. right. split; auto. split; auto.
    assert (NN : ~ NoDup rs). { intros ND. assert (false = true); [apply I1; split; auto|discriminate]. }
    clear - F1 P NN WF. pose proof (vars_nodup f) as NV. revert NN NV F1. generalize (nth f fs []) as vs. intros vs NN NV F1. induction F1 as [|v r vs rs R F IH]. { exfalso. apply NN. constructor. }
    inversion NV; subst. destruct (in_dec Nat.eq_dec r rs) as [I|NI].
    + assert (X : exists w, In w vs /\ Root (parents p) w r). { clear - F I. induction F as [|u s vs rs R F IH]; [destruct I|]. destruct I as [->|I]. { exists u. cbn. auto. } destruct (IH I) as [w [W1 W2]]. exists w. cbn. auto. }
      destruct X as [w [W1 W2]]. exists v, w. split; [left; auto|]. split; [right; auto|]. split; [intros ->; auto|]. apply (root_class p pairs v w r r P); auto.
    + destruct IH as [a [b [A1 [A2 [A3 A4]]]]]; auto. { intros ND. apply NN. constructor; auto. } exists a, b. cbn. auto.
Qed.

Lemma span_pass : forall d0 m white l d p pairs kept gray, SP d0 m d p pairs -> (forall v, v < nv -> copy_of d0 v m v) -> nth m (d_nsv d0) 0 = nv -> (forall f, In f l -> f < nf) ->
  exists d' p' pairs' kept' gray', foldM (span_factor fs white m) l (d, p, kept, gray) = Ret (d', p', kept ++ kept', gray ++ gray') /\ SP d0 m d' p' pairs' /\ extends d d' /\
    (forall f, In f kept' -> In f l) /\ (forall f, In f gray' -> In f l) /\ length kept' <= length l /\ (forall f, In f l -> In f kept' \/ nth f (d_fl d') [] <> [] \/ white = false) /\ (white = false -> kept' = l /\ gray' = []).
Proof.
  intros d0 m white. induction l as [|f l IH]; intros d p pairs kept gray H C Z B; cbn [foldM].
  { exists d, p, pairs, [], []. rewrite !app_nil_r. split; auto. split; auto. split; [apply extends_refl|]. repeat split; auto. }
  destruct (span_factor_ok d0 m white d p pairs kept gray f H C Z (B f (or_introl eq_refl))) as [d1 [p1 [pairs1 [kept1 [gray1 [E1 [S1 O1]]]]]]]. rewrite E1. cbn [bind].
  destruct (IH d1 p1 pairs1 kept1 gray1 S1 C Z) as [d2 [p2 [pairs2 [kept2 [gray2 [E2 [S2 [X2 [K2 [G2 [L2 [O2 W2]]]]]]]]]]]]. { intros. apply B. right. auto. }
  assert (X1 : extends d d1).
  { revert E1. unfold span_factor. rewrite (rd_nth _ fs f []) by (apply B; left; auto). cbn [bind]. destruct (fits_in p [] (nth f fs [])) as [[q [|]]| | |]; cbn [bind]; try discriminate.
    2:{ intros Q. assert (d = d1) by (destruct white; congruence). subst. apply extends_refl. }
    destruct (addSubFactor_ok nv fs d m f (nth f fs []) (sp_dc _ _ _ _ _ H)) as [dd [k [Q1 [_ [Q2 _]]]]]. { rewrite (sp_nm _ _ _ _ _ H). lia. } { apply B. left. auto. }
    { assert (Q : forall l', (forall v, In v l' -> v < nv) -> copies_of d l' m l'). { intros l'. induction l' as [|v l' IHl]; intros Q; constructor. - unfold copy_of. rewrite (sp_vl _ _ _ _ _ H). apply C. apply Q. left. auto. - apply IHl. intros. apply Q. right. auto. } apply Q. intros. eapply (var_lt nv fs WF); eauto. }
    rewrite Q1. cbn [bind]. destruct (merge_all q (nth f fs [])); cbn [bind]; try discriminate. intros Q. assert (dd = d1) by (destruct white; congruence). subst. auto. }
  destruct O1 as [[-> [[-> [-> N1]]|[-> [-> _]]]]|[-> [-> ->]]].
  - exists d2, p2, pairs2, kept2, (f :: gray2). rewrite E2, <- app_assoc. split; auto. split; auto. split; [eapply extends_trans; eauto|]. split; [intros; right; auto|]. split; [intros g [<-|I]; [left|right]; auto|]. split; [cbn; lia|]. split; [|discriminate].
    intros g [<-|I]; auto. right. left. destruct X2 as [_ [_ [X2 _]]]. destruct (nth f (d_fl d1) []) as [|s t] eqn:Q; [tauto|]. specialize (X2 f s). rewrite Q in X2. specialize (X2 (or_introl eq_refl)). intros Y. rewrite Y in X2. destruct X2.
  - exists d2, p2, pairs2, (f :: kept2), gray2. rewrite E2, <- app_assoc. split; auto. split; auto. split; [eapply extends_trans; eauto|]. split; [intros g [<-|I]; [left|right]; auto|]. split; [intros; right; auto|]. split; [cbn; lia|]. split; [|discriminate].
    intros g [<-|I]; [left; left; auto|]. destruct (O2 g I) as [Q|Q]; auto. left. right. auto.
  - destruct (W2 eq_refl) as [-> ->]. exists d2, p2, pairs2, (f :: l), []. rewrite E2, <- app_assoc. split; auto. split; auto. split; [eapply extends_trans; eauto|]. split; auto. split; [intros g []|]. auto.
Qed.

(** A first factor fits. *)
Lemma span_first : forall d0 m d p f l, SP d0 m d p [] -> (forall v, v < nv -> copy_of d0 v m v) -> nth m (d_nsv d0) 0 = nv -> (forall g, In g (f :: l) -> g < nf) ->
  exists d' p' pairs' kept gray, foldM (span_factor fs true m) (f :: l) (d, p, [], []) = Ret (d', p', kept, gray) /\ SP d0 m d' p' pairs' /\ extends d d' /\
    (forall g, In g kept -> In g l) /\ (forall g, In g gray -> In g (f :: l)) /\ length kept <= length l /\ (forall g, In g (f :: l) -> In g kept \/ nth g (d_fl d') [] <> []).
Proof.
  intros d0 m d p f l H C Z B. destruct (span_pass d0 m true (f :: l) d p [] [] [] H C Z B) as [d' [p' [pairs' [kept [gray [E [S [X [K [G [L [O _]]]]]]]]]]]]. cbn [app] in E.
  exists d', p', pairs', kept, gray. split; auto. split; auto. split; auto.
  destruct (span_factor_ok d0 m true d p [] [] [] f H C Z (B f (or_introl eq_refl))) as [d1 [p1 [pairs1 [kept1 [gray1 [E1 [S1 O1]]]]]]].
  destruct O1 as [[_ [[-> [-> N1]]|[_ [_ [a [b [_ [_ [AB Q]]]]]]]]]|[O1 _]]; [| |discriminate].
  2:{ exfalso. apply AB. clear - Q. induction Q; auto; [destruct H|congruence]. }
  cbn [foldM app] in E. rewrite E1 in E. cbn [bind app] in E. destruct (span_pass d0 m true l d1 p1 pairs1 [] [f] S1 C Z) as [d2 [p2 [pairs2 [kept2 [gray2 [E2 [_ [_ [K2 [_ [L2 _]]]]]]]]]]]. { intros. apply B. right. auto. }
  cbn [app] in E2. rewrite E in E2. injection E2 as _ _ -> _. split; auto. split; auto. split; auto. intros g I. destruct (O g I) as [|[|]]; auto. discriminate.
Qed.

(** Every finished submodel contains every variable once, and is acyclic. *)
Record SL (d : dec) : Prop := {
  sl_dc : DC d;
  sl_el : d_el d = [];
  sl_vars : forall m, m < d_nm d -> nth m (d_nsv d) 0 = nv /\ forall v k, copy_of d v m k <-> k = v /\ v < nv;
  sl_acyc : forall m, m < d_nm d -> acyc (sub_factors d m) }.

Lemma span_loop_ok : forall fuel d white black, SL d -> (forall f, In f white -> f < nf) -> (forall f, In f black -> f < nf) -> length white < fuel ->
  exists d', span_loop nv fs fuel d white black = Ret d' /\ SL d' /\ extends d d' /\ (white <> [] -> d_nm d < d_nm d') /\ d_nm d' <= d_nm d + length white /\ forall f, In f white -> nth f (d_fl d') [] <> [].
Proof.
  induction fuel as [|fuel IH]; intros d white black H BW BB L; [lia|]. destruct white as [|f white]; cbn [span_loop]. { exists d. split; auto. split; auto. split; [apply extends_refl|]. split; [tauto|]. split; [cbn; lia|]. intros g []. }
  destruct H as [D EL VS AC]. destruct (addSubModel_ok nv fs d D) as [D1 [X1 [M1 [N1 Z1]]]].
  assert (NS : forall m, m < d_nm d -> nth m (d_nsv (fst (addSubModel d))) 0 = nth m (d_nsv d) 0). { intros m Hm. unfold addSubModel. cbn [fst d_nsv]. rewrite app_nth1; auto. rewrite (proj1 (dc_nm _ _ _ D)). auto. }
  assert (F1 : d_fl (fst (addSubModel d)) = d_fl d) by reflexivity. assert (EL1 : d_el (fst (addSubModel d)) = d_el d) by reflexivity. assert (V1 : d_vl (fst (addSubModel d)) = d_vl d) by reflexivity.
  destruct (addSubModel d) as [d1 m]. cbn [fst snd] in *. subst m. set (m := d_nm d) in *.
  assert (C1 : forall v k, ~ copy_of d1 v m k). { intros v k Q. unfold copy_of in Q. rewrite V1 in Q. apply (dc_range _ _ _ D) in Q. unfold m in Q. lia. }
  destruct (all_variables_ok d1 m D1 ltac:(lia) Z1 C1) as [d2 [E2 [D2 [X2 [FL2 [EL2 [N2 [NV2 CV2]]]]]]]]. rewrite E2. cbn [bind].
  assert (CP : forall v, v < nv -> copy_of d2 v m v). { intros v Hv. apply CV2. auto. }
  assert (SM : forall m', sub_factors d2 m' = sub_factors d m'). { intros m'. rewrite (sub_factors_same d1 d2), (sub_factors_same d d1); auto. }
  assert (NIL : sub_factors d m = []).
  { destruct (sub_factors d m) as [|x t] eqn:Q; auto. exfalso. destruct (sub_factors_In d m x) as [s [S1 [S2 S3]]]. { rewrite Q. left. auto. } assert (s_model s < d_nm d). { destruct S3 as [[g S3]|[key [l [S3 S4]]]]; [apply (dc_factor _ _ _ D) in S3; apply S3|rewrite EL in S3; destruct S3]. } unfold m in S1. lia. }
  assert (S0 : SP d2 m d2 (part_init nv) []).
  { split; auto. - lia. - apply PInv_init. - rewrite SM, NIL. apply tied_nil. - apply extends_refl. }
  destruct (span_first d2 m d2 (part_init nv) f white S0 CP NV2 BW) as [d3 [p3 [pairs3 [kept [gray [E3 [S3 [X3 [K3 [G3 [L3 O3]]]]]]]]]]].
  replace (foldM (span_factor fs true m) (f :: white) (d2, part_init nv, [], [])) with (Ret (d3, p3, kept, gray)) by (symmetry; exact E3). cbn [bind].
  destruct (span_pass d2 m false black d3 p3 pairs3 [] gray S3 CP NV2 BB) as [d4 [p4 [pairs4 [kept4 [gray4 [E4 [S4 [X4 [_ [_ [_ [_ W4]]]]]]]]]]]]. rewrite E4. cbn [bind app]. destruct (W4 eq_refl) as [-> ->]. rewrite app_nil_r.
  assert (H4 : SL d4).
  { destruct S4 as [D4 N4 V4 NS4 EL4 P4 T4 R4 Y4]. split; auto.
    - rewrite EL4, EL2, EL1. auto.
    - intros m' Hm. assert (CE : forall v k, copy_of d4 v m' k <-> copy_of d2 v m' k) by (intros; unfold copy_of; rewrite V4; tauto). rewrite NS4. destruct (Nat.eq_dec m' m) as [->|NE].
      + split; auto. intros v k. rewrite CE, CV2. split; [intros [Q|Q]; [exfalso; eapply C1; eauto|tauto]|]. tauto.
      + assert (Hm' : m' < d_nm d) by (fold m; lia). destruct (VS m' Hm') as [V1' V2']. split.
        * rewrite <- V1', <- (NS m' Hm'). clear - E2 N1 N2 Hm' D1 NE. revert E2. assert (Q : forall l e e', (forall v, In v l -> v < nv) -> DC e -> d_nm e = S m -> foldM (fun d v => '(d, _) <- addSubVariable d m v ;; Ret d) l e = Ret e' -> nth m' (d_nsv e') 0 = nth m' (d_nsv e) 0).
          { induction l as [|v l IH]; intros e e' B De Ne Q; cbn [foldM] in Q. { injection Q as <-. auto. } destruct (addSubVariable_ok nv fs e m v De ltac:(lia) (B v (or_introl eq_refl))) as [e1 [Q1 [Q2 [_ [_ [Q3 [_ [_ [_ [Q5 _]]]]]]]]]]. rewrite Q1 in Q. cbn [bind] in Q. rewrite (IH e1 e'); auto. { rewrite Q5. destruct (Nat.eq_dec m m'); [lia|auto]. } { intros. apply B. right. auto. } congruence. }
          apply Q; auto. intros v I. apply in_seq in I. lia.
        * intros v k. rewrite CE, CV2. unfold copy_of. rewrite V1. fold (copy_of d v m' k). rewrite V2'. intuition.
    - intros m' Hm. destruct (Nat.eq_dec m' m) as [->|NE]; [apply T4|]. eapply acyc_perm; [symmetry; apply R4; auto|]. rewrite SM. apply AC. fold m. lia. }
  destruct (IH d4 kept (black ++ gray) H4) as [d5 [E5 [H5 [X5 [N5 [N6 O5]]]]]].
  { intros g I. apply BW. right. auto. } { intros g I. apply in_app_iff in I. destruct I; auto. } { cbn in L. lia. }
  assert (N4 : d_nm d4 = S m) by apply S4.
  exists d5. split; auto. split; auto. split. { eapply extends_trans; [exact X1|]. eapply extends_trans; [exact X2|]. eapply extends_trans; [exact X3|]. eapply extends_trans; eauto. }
  split. { intros _. destruct X5 as [_ [_ [_ X5]]]. fold m. lia. } split. { fold m. cbn [length]. lia. }
  intros g I. destruct (O3 g I) as [Q|Q]; auto. assert (X45 : extends d3 d5) by (eapply extends_trans; eauto). destruct X45 as [_ [_ [X45 _]]]. destruct (nth g (d_fl d3) []) as [|s t] eqn:Qs; [tauto|]. specialize (X45 g s). rewrite Qs in X45. specialize (X45 (or_introl eq_refl)). intros Y. rewrite Y in X45. destruct X45.
Qed.

Lemma spanning_ok : exists d, decomposeIntoSpanningTrees nv fs = Ret d /\ DC d /\ d_el d = [] /\ single d /\ (forall m, m < d_nm d -> nth m (d_nsv d) 0 = nv /\ forall v k, copy_of d v m k <-> k = v /\ v < nv) /\
  (forall m, m < d_nm d -> acyc (sub_factors d m)) /\ (fs <> [] <-> 0 < d_nm d) /\ d_nm d <= nf /\ (forall f, f < nf -> nth f (d_fl d) [] <> []).
Proof.
  unfold decomposeIntoSpanningTrees, DecompModel.nf. destruct (span_loop_ok (S nf) (dec_new nv nf 0) (seq 0 nf) []) as [d [E [[D EL VS AC] [X [N1 [N2 O]]]]]].
  - split; [apply dec_new_ok|auto| |]; cbn [d_nm dec_new]; intros; lia.
  - intros f I. apply in_seq in I. lia.
  - intros f [].
  - rewrite seq_length. lia.
  - exists d. split; auto. split; auto. split; auto. split. { intros v m k l A B. pose proof (dc_range _ _ _ D _ _ _ A) as R. apply (VS m) in A, B; try tauto. destruct A, B. congruence. } split; auto. split; auto. rewrite seq_length in N2. cbn [d_nm dec_new] in *. split; [|split; [auto|]].
    + split; [intros Q; apply N1; destruct fs; [tauto|discriminate]|]. intros Q R. rewrite R in N2. cbn in N2. lia.
    + intros f Hf. apply O. apply in_seq. lia.
Qed.
End T.
