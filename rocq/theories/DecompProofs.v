(** Proofs about GraphicalModelDecomposition: the add functions, reorder, complete, isValid. *)
From Coq Require Import Sorted Permutation.
From Verif Require Import Base DecompModel FactorGraphModel FactorGraphSpec DecompSpec.
#[local] Arguments nth_error : simpl never.

(** ** Lists *)
Lemma nth_lt : forall A (l : list A) i d, nth i l d <> d -> i < length l.
Proof. intros A l i d H. destruct (Nat.lt_ge_cases i (length l)) as [L|L]; auto. exfalso. apply H. apply nth_overflow. lia. Qed.
Lemma nth_In_lt : forall A (l : list (list A)) i x, In x (nth i l []) -> i < length l.
Proof. intros A l i x H. destruct (Nat.lt_ge_cases i (length l)) as [L|L]; auto. rewrite nth_overflow in H by lia. destruct H. Qed.
Lemma nth_upd : forall A (l : list A) i j v d, i < length l -> nth j (upd l i v) d = if Nat.eq_dec i j then v else nth j l d.
Proof. intros A l i j v d H. destruct (Nat.eq_dec i j) as [->|N]; [apply nth_upd_eq|apply nth_upd_neq]; auto. Qed.
Lemma nth_app_one : forall A (l : list A) x i d, nth i (l ++ [x]) d = if Nat.eq_dec i (length l) then x else nth i l d.
Proof.
  intros A l x i d. destruct (Nat.eq_dec i (length l)) as [->|N]. { rewrite app_nth2, Nat.sub_diag; auto. }
  destruct (Nat.lt_ge_cases i (length l)) as [L|L]. { apply app_nth1; auto. } rewrite !nth_overflow; auto. rewrite app_length. cbn. lia.
Qed.
Lemma mapM_ok : forall A B (f : A -> outcome B) (g : A -> B) l, (forall x, In x l -> f x = Ret (g x)) -> mapM f l = Ret (map g l).
Proof. intros A B f g l. induction l as [|x l IH]; intros H; auto. cbn [mapM map]. rewrite H by (cbn; auto). cbn [bind]. rewrite IH by (intros; apply H; cbn; auto). reflexivity. Qed.

(** ** The add functions *)
Section D.
Variable nv : nat.
Variable fs : list (list nat).
Notation DC := (decomposes nv fs).

Lemma dec_new_ok : DC (dec_new nv (length fs) 0).
Proof.
  unfold dec_new. assert (E : forall v, nth v (repeat (@nil (nat * nat)) nv) [] = []).
  { intros v. destruct (Nat.lt_ge_cases v nv). { apply nth_repeat. } apply nth_overflow. rewrite repeat_length. lia. }
  assert (F : forall f, nth f (repeat (@nil sub) (length fs)) [] = []).
  { intros f. destruct (Nat.lt_ge_cases f (length fs)). { apply nth_repeat. } apply nth_overflow. rewrite repeat_length. lia. }
  split; unfold copy_of; cbn; rewrite ?repeat_length; auto; intros.
  - rewrite E in H. destruct H.
  - lia.
  - rewrite E. constructor.
  - rewrite F in H. destruct H.
  - destruct H.
Qed.

(** One decomposition extends another one: the copies stay, nothing else is removed. *)
Definition extends (d d' : dec) : Prop :=
  (forall v m k, copy_of d v m k -> copy_of d' v m k) /\
  (forall v, nth v (d_vl d) [] <> [] -> nth v (d_vl d') [] <> []) /\
  (forall f s, In s (nth f (d_fl d) []) -> In s (nth f (d_fl d') [])) /\ d_nm d <= d_nm d'.
Lemma extends_refl : forall d, extends d d. Proof. intros d. repeat split; auto. Qed.
Lemma extends_trans : forall a b c, extends a b -> extends b c -> extends a c.
Proof. intros a b c [A1 [A2 [A3 A4]]] [B1 [B2 [B3 B4]]]. repeat split; auto. lia. Qed.
Lemma copies_mono : forall d d' vs m idx, (forall v m k, copy_of d v m k -> copy_of d' v m k) -> copies_of d vs m idx -> copies_of d' vs m idx.
Proof. intros d d' vs m idx H. unfold copies_of. induction 1; constructor; auto. Qed.

Lemma addSubModel_ok : forall d, DC d -> DC (fst (addSubModel d)) /\ extends d (fst (addSubModel d)) /\ snd (addSubModel d) = d_nm d /\
  d_nm (fst (addSubModel d)) = S (d_nm d) /\ nth (d_nm d) (d_nsv (fst (addSubModel d))) 0 = 0.
Proof.
  intros d [N F [M1 M2] R X O A E]. unfold addSubModel. cbn [fst snd d_nm d_nsv]. split; [|split; [|split; [|split]]]; auto.
  - split; cbn; auto.
    + rewrite !app_length. cbn. lia.
    + intros v m k H. destruct (R v m k H) as [H1 [H2 H3]]. split; [auto|split; [lia|]]. rewrite app_nth1 by lia. auto.
    + intros m k H1 H2. rewrite nth_app_one in H2. destruct (Nat.eq_dec m (length (d_nsv d))); [lia|]. apply X; auto. lia.
    + intros f s H. destruct (A f s H). split; auto.
    + intros key l s H1 H2. destruct (E key l s H1 H2). split; auto.
  - repeat split; auto. cbn. lia.
  - rewrite nth_app_one. destruct (Nat.eq_dec (d_nm d) (length (d_nsv d))); auto. lia.
Qed.

Lemma addSubVariable_ok : forall d m v, DC d -> m < d_nm d -> v < nv -> exists d',
  addSubVariable d m v = Ret (d', nth m (d_nsv d) 0) /\ DC d' /\ extends d d' /\ copy_of d' v m (nth m (d_nsv d) 0) /\
  d_nm d' = d_nm d /\ d_fl d' = d_fl d /\ d_el d' = d_el d /\ d_nsf d' = d_nsf d /\
  (forall m', nth m' (d_nsv d') 0 = if Nat.eq_dec m m' then S (nth m (d_nsv d) 0) else nth m' (d_nsv d) 0) /\
  (forall u m' k, copy_of d' u m' k -> copy_of d u m' k \/ (u = v /\ m' = m /\ k = nth m (d_nsv d) 0)).
Proof.
  intros d m v H Hm Hv. assert (DD := H). destruct H as [[N1 N2] F [M1 M2] R X O A E]. unfold addSubVariable.
  rewrite (rd_nth _ (d_nsv d) m 0) by lia. cbn [bind]. rewrite (rd_nth _ (d_vl d) v []) by lia. cbn [bind].
  rewrite wr_Ret by lia. cbn [bind]. rewrite wr_Ret by lia. cbn [bind]. eexists. split; [reflexivity|].
  set (k := nth m (d_nsv d) 0). set (d' := set_nsv _ _).
  assert (CP : forall u, nth u (d_vl d') [] = if Nat.eq_dec v u then nth v (d_vl d) [] ++ [(m, k)] else nth u (d_vl d) []).
  { intros u. unfold d'. cbn. apply nth_upd. lia. }
  assert (SV : forall m', nth m' (d_nsv d') 0 = if Nat.eq_dec m m' then S k else nth m' (d_nsv d) 0).
  { intros m'. unfold d'. cbn. apply nth_upd. lia. }
  assert (NEW : copy_of d' v m k).
  { unfold copy_of. rewrite CP. destruct (Nat.eq_dec v v); [|lia]. apply in_or_app. cbn. auto. }
  assert (MONO : forall u m' k', copy_of d u m' k' -> copy_of d' u m' k').
  { intros u m' k' H. unfold copy_of in *. rewrite CP. destruct (Nat.eq_dec v u) as [->|]; auto. apply in_or_app. auto. }
  assert (OLD : forall u m' k', copy_of d' u m' k' -> copy_of d u m' k' \/ (u = v /\ m' = m /\ k' = k)).
  { intros u m' k' H. unfold copy_of in *. rewrite CP in H. destruct (Nat.eq_dec v u) as [->|]; auto. apply in_app_or in H. destruct H as [H|[H|[]]]; auto.
    injection H as <- <-. auto. }
  split; [|split; [|repeat split; auto]].
  2:{ split; [exact MONO|split; [|split; [auto|cbn; lia]]]. intros u H. rewrite CP. destruct (Nat.eq_dec v u) as [->|]; auto. intros Q. apply app_eq_nil in Q. tauto. }
  split; auto.
  - cbn. rewrite length_upd. auto.
  - cbn. rewrite length_upd. auto.
  - intros u m' k' H. rewrite SV. cbn [d_nm set_nsv set_vl d']. destruct (OLD _ _ _ H) as [G|[-> [-> ->]]].
    + destruct (R _ _ _ G) as [G1 [G2 G3]]. split; [auto|split; [auto|]]. destruct (Nat.eq_dec m m') as [->|]; auto; unfold k; lia.
    + split; [auto|split; [auto|]]. destruct (Nat.eq_dec m m); lia.
  - intros m' k' H1 H2. rewrite SV in H2. cbn [d_nm set_nsv set_vl d'] in H1.
    assert (Q : k' < nth m' (d_nsv d) 0 \/ (m' = m /\ k' = k)). { destruct (Nat.eq_dec m m') as [->|]; auto. unfold k. fold k. destruct (Nat.eq_dec k' k); auto. left. unfold k in *. lia. }
    destruct Q as [Q|[-> ->]].
    + destruct (X m' k' H1 Q) as [u [U1 U2]]. exists u. split; auto. intros w W. destruct (OLD _ _ _ W) as [G|[-> [-> ->]]]; auto. unfold k in Q. lia.
    + exists v. split; auto. intros w W. destruct (OLD _ _ _ W) as [G|[-> _]]; auto. destruct (R _ _ _ G) as [_ [_ G3]]. unfold k in G3. lia.
  - intros u. rewrite CP. destruct (Nat.eq_dec v u) as [->|]; auto. apply NoDup_app_intro; auto. { repeat constructor. cbn. tauto. }
    intros [m' k'] I1 [I2|[]]. injection I2 as <- <-. destruct (R u m k I1) as [_ [_ G]]. unfold k in G. lia.
  - intros f s H. destruct (A f s H) as [A1 A2]. split; auto. eapply copies_mono; eauto.
  - intros key l s H1 H2. destruct (E key l s H1 H2) as [A1 A2]. split; auto. eapply copies_mono; eauto.
Qed.

Lemma count_factor_ok : forall d m, length (d_nsf d) = d_nm d -> m < d_nm d -> count_factor d m = Ret (set_nsf d (upd (d_nsf d) m (S (nth m (d_nsf d) 0))), nth m (d_nsf d) 0).
Proof. intros d m H H'. unfold count_factor. rewrite (rd_nth _ _ m 0) by lia. cbn [bind]. rewrite wr_Ret by lia. reflexivity. Qed.

Lemma addSubFactor_ok : forall d m f idx, DC d -> m < d_nm d -> f < length fs -> copies_of d (nth f fs []) m idx -> exists d' k,
  addSubFactor d m f idx = Ret (d', k) /\ DC d' /\ extends d d' /\ d_vl d' = d_vl d /\ d_nsv d' = d_nsv d /\ d_nm d' = d_nm d /\ d_el d' = d_el d /\
  d_fl d' = upd (d_fl d) f (nth f (d_fl d) [] ++ [mkSub m (Some k) idx]).
Proof.
  intros d m f idx H Hm Hf C. destruct H as [N [F1 F2] [M1 M2] R X O A E]. unfold addSubFactor.
  rewrite (rd_nth _ (d_nsf d) m 0) by lia. cbn [bind]. rewrite (rd_nth _ (d_fl d) f []) by lia. cbn [bind]. rewrite wr_Ret by lia. cbn [bind].
  rewrite count_factor_ok by auto. eexists. eexists. split; [reflexivity|]. cbn [d_nsf set_fl].
  set (d' := set_nsf _ _). assert (CP : forall g, nth g (d_fl d') [] = if Nat.eq_dec f g then nth f (d_fl d) [] ++ [mkSub m (Some (nth m (d_nsf d) 0)) idx] else nth g (d_fl d) []).
  { intros g. unfold d'. cbn. apply nth_upd. lia. }
  split; [|split; [|repeat split; auto]].
  - split; auto.
    + cbn. rewrite length_upd. auto.
    + cbn. rewrite length_upd. auto.
    + intros g s H. rewrite CP in H. destruct (Nat.eq_dec f g) as [->|]; [|destruct (A g s H); split; auto].
      apply in_app_or in H. destruct H as [H|[<-|[]]]; [destruct (A g s H); split; auto|]. split; auto.
  - repeat split; auto. intros g s H. rewrite CP. destruct (Nat.eq_dec f g) as [->|]; auto. apply in_or_app. auto.
Qed.

(** ** The map from variables without a factor *)
Lemma lex_irrefl : forall a, lex a a = false.
Proof. induction a as [|x a IH]; cbn [lex]; auto. rewrite Nat.ltb_irrefl. auto. Qed.
Lemma lex_eq : forall a b, lex a b = false -> lex b a = false -> a = b.
Proof.
  induction a as [|x a IH]; intros [|y b]; cbn [lex]; try discriminate; auto. destruct (Nat.ltb_spec x y), (Nat.ltb_spec y x); try discriminate; try lia.
  intros. f_equal; [lia|auto].
Qed.
Lemma lex_trans : forall a b c, lex a b = true -> lex b c = true -> lex a c = true.
Proof.
  induction a as [|x a IH]; intros [|y b] [|z c]; cbn [lex]; try discriminate; auto.
  destruct (Nat.ltb_spec x y), (Nat.ltb_spec y x), (Nat.ltb_spec y z), (Nat.ltb_spec z y), (Nat.ltb_spec x z), (Nat.ltb_spec z x); try discriminate; try lia; auto. apply IH.
Qed.
Lemma lex_asym : forall a b, lex a b = true -> lex b a = false.
Proof. intros a b H. destruct (lex b a) eqn:E; auto. pose proof (lex_trans a b a H E) as Q. rewrite lex_irrefl in Q. discriminate. Qed.
Lemma el_at_push_eq : forall e k s, el_at (el_push e k s) k = el_at e k ++ s.
Proof.
  induction e as [|[k' l] e IH]; intros k s; cbn; rewrite ?lex_irrefl; auto.
  destruct (lex k k') eqn:A; cbn; rewrite ?lex_irrefl; auto. destruct (lex k' k) eqn:B; cbn; rewrite A, B; auto.
Qed.
Lemma el_at_push_neq : forall e k k' s, k <> k' -> el_at (el_push e k' s) k = el_at e k.
Proof.
  induction e as [|[k0 l] e IH]; intros k k' s N; cbn.
  - destruct (lex k k') eqn:A; auto. destruct (lex k' k) eqn:B; auto. exfalso. apply N. apply lex_eq; auto.
  - destruct (lex k' k0) eqn:A; cbn.
    + destruct (lex k k') eqn:B. { rewrite (lex_trans k k' k0) by auto. auto. }
      destruct (lex k' k) eqn:C; auto. exfalso. apply N. apply lex_eq; auto.
    + destruct (lex k0 k') eqn:B; cbn. { destruct (lex k k0); auto. destruct (lex k0 k); auto. }
      assert (k0 = k') as -> by (apply lex_eq; auto). destruct (lex k k') eqn:C; auto. destruct (lex k' k) eqn:D; auto. exfalso. apply N. apply lex_eq; auto.
Qed.
Lemma el_at_In : forall e k, el_at e k = [] \/ In (k, el_at e k) e.
Proof.
  induction e as [|[k' l] e IH]; intros k; cbn; auto. destruct (lex k k') eqn:A; auto. destruct (lex k' k) eqn:B.
  - destruct (IH k); auto.
  - right. left. f_equal. apply lex_eq; auto.
Qed.
Lemma el_push_key : forall e k s key l, In (key, l) (el_push e k s) -> In (key, l) e \/ key = k.
Proof.
  induction e as [|[k' l'] e IH]; intros k s key l H; cbn [el_push] in H.
  - destruct H as [H|[]]. injection H as <- <-. auto.
  - destruct (lex k k') eqn:A; [|destruct (lex k' k) eqn:B]; cbn [In] in H |- *.
    + destruct H as [H|H]; [injection H as <- <-|]; auto.
    + destruct H as [H|H]; auto. apply IH in H. tauto.
    + destruct H as [H|H]; auto. injection H as <- <-. right. symmetry. apply lex_eq; auto.
Qed.
Lemma el_push_In : forall e k s key l x, In (key, l) (el_push e k s) -> In x l -> (exists l', In (key, l') e /\ In x l') \/ (key = k /\ In x s).
Proof.
  induction e as [|[k' l'] e IH]; intros k s key l x H I; cbn in H.
  - destruct H as [H|[]]. injection H as <- <-. auto.
  - destruct (lex k k') eqn:A; [|destruct (lex k' k) eqn:B]; cbn in H.
    + destruct H as [H|[H|H]]. { injection H as <- <-. auto. } { injection H as <- <-. left. exists l'. cbn. auto. } left. exists l. cbn. auto.
    + destruct H as [H|H]. { injection H as <- <-. left. exists l'. cbn. auto. }
      destruct (IH k s key l x H I) as [[l2 [G1 G2]]|G]; auto. left. exists l2. cbn. auto.
    + destruct H as [H|H]. 2:{ left. exists l. cbn. auto. } injection H as <- <-. apply in_app_or in I. destruct I as [I|I].
      { left. exists l'. cbn. auto. } right. split; auto. apply lex_eq; auto.
Qed.

Lemma addSubFactor_empty_ok : forall d m key idx, DC d -> m < d_nm d -> copies_of d key m idx -> exists d' k,
  addSubFactor_empty d m key idx = Ret (d', k) /\ DC d' /\ extends d d' /\ d_vl d' = d_vl d /\ d_nsv d' = d_nsv d /\ d_nm d' = d_nm d /\
  d_el d' = el_push (d_el d) key [mkSub m None idx] /\ d_fl d' = d_fl d.
Proof.
  intros d m key idx H Hm C. destruct H as [N F [M1 M2] R X O A E]. unfold addSubFactor_empty. rewrite count_factor_ok by auto.
  eexists. eexists. split; [reflexivity|]. split; [|repeat split; auto].
  split; auto.
  - cbn. rewrite length_upd. auto.
  - intros key' l s H I. cbn in H. destruct (el_push_In _ _ _ _ _ _ H I) as [[l' [G1 G2]]|[-> [<-|[]]]].
    + destruct (E _ _ _ G1 G2). split; auto.
    + split; auto.
Qed.
Lemma touch_ok : forall d key, DC d -> DC (set_el d (el_push (d_el d) key [])).
Proof.
  intros d key [N F M R X O A E]. split; auto. intros key' l s H I. cbn in H. destruct (el_push_In _ _ _ _ _ _ H I) as [[l' [G1 G2]]|[_ []]]. eauto.
Qed.
End D.
