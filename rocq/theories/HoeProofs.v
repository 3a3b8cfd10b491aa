(** Proofs for HoeModel. *)
From Coq Require Import QArith Qcanon Sorting.Sorted Lqa.
From Verif Require Import Base HoeModel HoeSpec.
Open Scope nat_scope.

Global Arguments Q2Qc : simpl never.
Global Arguments Qcplus : simpl never.
Global Arguments Qcmult : simpl never.
Global Arguments Qcopp : simpl never.
Global Arguments Qcminus : simpl never.

Lemma Qc_eq_Q (a b : Qc) : a = b -> (this a == this b)%Q.
Proof. intros ->. reflexivity. Qed.
(** Linear arithmetic over Qc, by way of Q. *)
Ltac qlra :=
  repeat match goal with H : @eq Qc _ _ |- _ => apply Qc_eq_Q in H end;
  try apply Qc_is_canon; unfold Qcle, Qclt, Qcminus, Qcplus, Qcopp, Q2Qc in *; cbn [this] in *; rewrite ?Qred_correct in *; lra.


Ltac qring := first [ring | qlra].
Lemma qsum_app l1 l2 : qsum (l1 ++ l2) = (qsum l1 + qsum l2)%Qc.
Proof. induction l1 as [|a l1 IH]; cbn; [qring|]. rewrite IH. qring. Qed.
Lemma qsum_upd {A} (f : A -> Qc) l : forall i a b, nth_error l i = Some a -> qsum (map f (upd l i b)) = (qsum (map f l) - f a + f b)%Qc.
Proof. induction l as [|c l IH]; intros [|i] a b E; cbn in E; try discriminate; cbn; [injection E as ->; qring|]. rewrite (IH i a b E). qring. Qed.
Lemma upd_same {A} (l : list A) : forall i b, i < length l -> nth_error (upd l i b) i = Some b.
Proof. induction l as [|c l IH]; intros [|i] b H; cbn in *; try lia; auto. apply IH. lia. Qed.
Lemma upd_other {A} (l : list A) : forall i j b, i <> j -> nth_error (upd l i b) j = nth_error l j.
Proof. induction l as [|c l IH]; intros [|i] [|j] b H; cbn; auto; try lia. Qed.
Lemma upd_len {A} (l : list A) : forall i b, length (upd l i b) = length l.
Proof. induction l as [|c l IH]; intros [|i] b; cbn; auto. Qed.
Lemma wr_ok {A} (l : list A) i b : i < length l -> wr l i b = Ret (upd l i b).
Proof. intros H. unfold wr. rewrite (proj2 (Nat.ltb_lt _ _) H). reflexivity. Qed.
Lemma rd_some {A} (l : list A) i a : nth_error l i = Some a -> rd l i = Ret a.
Proof. unfold rd. intros ->. reflexivity. Qed.
Lemma nth_some {A} (l : list A) i : i < length l -> exists a, nth_error l i = Some a.
Proof. intros H. destruct (nth_error l i) eqn:E; eauto. apply nth_error_None in E. lia. Qed.
Lemma nth_lt {A} (l : list A) i a : nth_error l i = Some a -> i < length l.
Proof. intros H. apply nth_error_Some. rewrite H. discriminate. Qed.
Lemma upd_inv {A} (l : list A) i b j a : nth_error (upd l i b) j = Some a -> (i = j /\ a = b) \/ nth_error l j = Some a.
Proof.
  intros H. destruct (Nat.eq_dec i j) as [->|N]; [|rewrite upd_other in H; auto].
  left. split; auto. rewrite upd_same in H; [congruence|]. apply nth_lt in H. rewrite upd_len in H. exact H.
Qed.

Lemma qzero_spec c : qzero c = true <-> c = 0%Qc.
Proof. unfold qzero. destruct (Qc_eq_dec c 0%Qc); split; intros; congruence. Qed.
Lemma qpos_true c : qpos c = true -> (0 < c)%Qc.
Proof. unfold qpos. destruct (Qclt_le_dec 0%Qc c); intros; congruence. Qed.
Lemma qpos_false c : qpos c = false -> (c <= 0)%Qc.
Proof. unfold qpos. destruct (Qclt_le_dec 0%Qc c); intros; congruence. Qed.

Lemma lex_eq l1 : forall l2, length l1 = length l2 -> lex l1 l2 = Eq -> l1 = l2.
Proof.
  induction l1 as [|a l1 IH]; intros [|b l2] L E; try discriminate; auto. cbn [lex] in E. injection L as L. revert E. destruct (Nat.eqb_spec a b) as [->|N]; [|destruct (a <? b); discriminate]. intros E. f_equal. apply IH; auto.
Qed.
Lemma Compare_eq l1 l2 : Compare l1 l2 = Eq -> l1 = l2.
Proof.
  unfold Compare. destruct (Nat.ltb_spec (length l1) (length l2)); [discriminate|]. destruct (Nat.ltb_spec (length l2) (length l1)); [discriminate|].
  apply lex_eq. lia.
Qed.

(** *** The value of an energy *)
Definition term_value (x : nat -> bool) (t : term) : Qc := mono (t_coeff t) (t_vars t) x.
Definition rec_value (x : nat -> bool) (r : vrec) : Qc := (mono (r_coeff r) [r_id r] x + qsum (map (term_value x) (r_terms r)))%Qc.
Definition sem (h : hoe) (x : nat -> bool) : Qc := qsum (map (rec_value x) (h_recs h)).

Definition term_ok (D n v : nat) (t : term) : Prop :=
  (exists w ws, t_vars t = v :: w :: ws) /\ StronglySorted lt (t_vars t) /\ Forall (fun u => u < n) (t_vars t) /\ length (t_vars t) <= D.
Definition wf_hoe (D : nat) (h : hoe) : Prop :=
  h_count h = length (h_recs h) /\ forall v r, nth_error (h_recs h) v = Some r -> r_id r = v /\ Forall (term_ok D (length (h_recs h)) v) (r_terms r).

Lemma mono_ext c vs x y : (forall v, In v vs -> x v = y v) -> mono c vs x = mono c vs y.
Proof. intros H. unfold mono. replace (forallb x vs) with (forallb y vs); auto. induction vs as [|v vs IH]; cbn; auto. rewrite IH, (H v); cbn; auto. intros. apply H. right. auto. Qed.
Lemma mono_zero vs x : mono 0%Qc vs x = 0%Qc.
Proof. unfold mono. destruct (forallb x vs); reflexivity. Qed.
Lemma mono_plus c d vs x : mono (c + d)%Qc vs x = (mono c vs x + mono d vs x)%Qc.
Proof. unfold mono. destruct (forallb x vs); qring. Qed.
Lemma mono_opp c vs x : mono (- c)%Qc vs x = (- mono c vs x)%Qc.
Proof. unfold mono. destruct (forallb x vs); qring. Qed.
Lemma sem_ext D h x y : wf_hoe D h -> (forall v, v < length (h_recs h) -> x v = y v) -> sem h x = sem h y.
Proof.
  intros [C W] H. unfold sem. f_equal. apply map_ext_in. intros r Hr. apply In_nth_error in Hr. destruct Hr as [v E]. destruct (W v r E) as [I F].
  unfold rec_value. f_equal.
  - apply mono_ext. intros u [<-|[]]. apply H. rewrite I. apply (nth_lt _ _ _ E).
  - f_equal. apply map_ext_in. intros t Ht. apply mono_ext. intros u Hu. apply H. rewrite Forall_forall in F. destruct (F t Ht) as (_ & _ & B & _).
    rewrite Forall_forall in B. apply B. exact Hu.
Qed.

Lemma insert_term_ok D c vs l : length vs <= D -> exists l', insert_term D c vs l = Ret l' /\
  (forall x, qsum (map (term_value x) l') = (qsum (map (term_value x) l) + mono c vs x)%Qc) /\
  (forall t', In t' l' -> In t' l \/ (t_vars t' = vs /\ (t_coeff t' = c \/ exists t, In t l /\ t_vars t = vs /\ t_coeff t' = (t_coeff t + c)%Qc))).
Proof.
  intros L. assert (NT : new_term D c vs = Ret (mkTerm c vs)) by (unfold new_term; rewrite (proj2 (Nat.leb_le _ _) L); reflexivity).
  induction l as [|t l (l' & E & S1 & S2)].
  - cbn [insert_term]. rewrite NT. cbn [bind]. eexists. split; [reflexivity|]. split; [intros x; cbn; unfold term_value; cbn; qring|]. intros t' [<-|[]]. right. cbn. auto.
  - cbn [insert_term]. destruct (Compare vs (t_vars t)) eqn:C.
    + apply Compare_eq in C. subst vs. eexists. split; [reflexivity|]. split.
      * intros x. cbn. unfold term_value at 1 3. cbn. rewrite mono_plus. qring.
      * intros t' [<-|H]; [right|left; right; auto]. cbn. split; auto. right. exists t. repeat split; auto; left; auto.
    + rewrite NT. cbn [bind]. eexists. split; [reflexivity|]. split.
      * intros x. cbn. unfold term_value at 1. cbn. qring.
      * intros t' [<-|H]; [right; cbn; auto|left; auto].
    + rewrite E. cbn [bind]. eexists. split; [reflexivity|]. split.
      * intros x. cbn. rewrite S1. qring.
      * intros t' [<-|H]; [left; left; auto|]. destruct (S2 t' H) as [H'|(H1 & [H2|(t0 & H2 & H3 & H4)])]; [left; right; auto|right; auto|].
        right. split; auto. right. exists t0. repeat split; auto. right. auto.
Qed.

(** What a call of AddTerm does. *)
Definition adds (D : nat) (c : Qc) (vs : list nat) (h h' : hoe) : Prop :=
  wf_hoe D h' /\ length (h_recs h') = length (h_recs h) /\ (forall x, sem h' x = (sem h x + (match vs with [] => 0 | _ => mono c vs x end))%Qc) /\
  (forall v, hd_error vs <> Some v -> nth_error (h_recs h') v = nth_error (h_recs h) v) /\
  (forall v r' t', nth_error (h_recs h') v = Some r' -> In t' (r_terms r') -> (exists r, nth_error (h_recs h) v = Some r /\ In t' (r_terms r)) \/
     (t_vars t' = vs /\ (t_coeff t' = c \/ exists r t, nth_error (h_recs h) v = Some r /\ In t (r_terms r) /\ t_vars t = vs /\ t_coeff t' = (t_coeff t + c)%Qc))) /\
  h_const h' = (h_const h + match vs with [] => c | _ => 0 end)%Qc.

Lemma AddUnaryTerm_ok D c v h : wf_hoe D h -> v < length (h_recs h) -> exists h', AddUnaryTerm v c h = Ret h' /\ adds D c [v] h h'.
Proof.
  intros [C W] L. destruct (nth_some _ _ L) as [r E]. destruct (W v r E) as [I F]. unfold AddUnaryTerm. rewrite (rd_some _ _ _ E). cbn [bind]. rewrite (wr_ok _ _ _ L). cbn [bind].
  eexists. split; [reflexivity|]. split; [split; cbn; [rewrite upd_len; exact C|]|].
  - intros u r' E'. rewrite upd_len. destruct (upd_inv _ _ _ _ _ E') as [[<- ->]|E'']; [cbn; auto|apply W; auto].
  - cbn. rewrite upd_len. split; [reflexivity|]. split; [|split; [|split]].
    + intros x. unfold sem. cbn. rewrite (qsum_upd (rec_value x) _ v r _ E). unfold rec_value at 2 3. cbn. rewrite mono_plus, I. qring.
    + intros u N. apply upd_other. congruence.
    + intros u r' t' E' Ht. left. destruct (upd_inv _ _ _ _ _ E') as [[<- ->]|E'']; cbn in *; eauto.
    + qring.
Qed.
Lemma AddTerm_ok D c vs h : wf_hoe D h -> StronglySorted lt vs -> Forall (fun v => v < length (h_recs h)) vs -> length vs <= D ->
  exists h', AddTerm D c vs h = Ret h' /\ adds D c vs h h'.
Proof.
  intros W0 SS B L. destruct (qzero c) eqn:Z.
  - unfold AddTerm. rewrite Z. apply qzero_spec in Z. subst c. exists h. split; [reflexivity|]. split; [exact W0|]. split; [reflexivity|]. split; [|split; [reflexivity|split]].
    + intros x. rewrite mono_zero. destruct vs; qring.
    + intros v r' t' E Ht. left. eauto.
    + destruct vs; qring.
  - unfold AddTerm. rewrite Z. destruct vs as [|v vs].
    + eexists. split; [reflexivity|]. split; [exact W0|]. split; [reflexivity|]. split; [intros x; unfold sem; cbn; qring|]. split; [reflexivity|]. split; [|reflexivity].
      intros v r' t' E Ht. left. eauto.
    + destruct vs as [|w vs]; [apply AddUnaryTerm_ok; [exact W0|]; inversion B; auto|].
      pose proof (Forall_inv B) as Lv. destruct W0 as [C W]. destruct (nth_some _ _ Lv) as [r E]. destruct (W v r E) as [I F]. rewrite (rd_some _ _ _ E). cbn [bind].
      destruct (insert_term_ok D c (v :: w :: vs) (r_terms r) L) as (l' & EI & S1 & S2). rewrite EI. cbn [bind]. rewrite (wr_ok _ _ _ Lv). cbn [bind].
      eexists. split; [reflexivity|]. split; [split; cbn; [rewrite upd_len; exact C|]|].
      * intros u r' E'. rewrite upd_len. destruct (upd_inv _ _ _ _ _ E') as [[<- ->]|E'']; [|apply W; auto]. cbn. split; [exact I|]. apply Forall_forall. intros t' Ht.
        destruct (S2 t' Ht) as [Hl|[V _]]; [rewrite Forall_forall in F; auto|]. unfold term_ok. rewrite V. split; [eauto|]. auto.
      * cbn. rewrite upd_len. split; [reflexivity|]. split; [|split; [|split]].
        -- intros x. unfold sem. cbn [h_recs]. rewrite (qsum_upd (rec_value x) _ v r _ E). unfold rec_value at 2 3. cbn [r_coeff r_id r_terms]. rewrite S1. qring.
        -- intros u N. apply upd_other. congruence.
        -- intros u r' t' E' Ht. destruct (upd_inv _ _ _ _ _ E') as [[<- ->]|E'']; cbn in *; [|left; eauto].
           destruct (S2 t' Ht) as [Hl|[V [Hc|(t & Ht1 & Ht2 & Ht3)]]]; [left; eauto|right; auto|]. right. split; auto. right. exists r, t. auto.
        -- qring.
Qed.
