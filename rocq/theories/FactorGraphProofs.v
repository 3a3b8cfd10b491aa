(** Proofs about the factor graph model: queries, orders, adjacency. *)
From Coq Require Import Sorted Permutation Relations.
From Verif Require Import Base PartitionModel RandomAccessSetModel RandomAccessSetSpec RandomAccessSetProofs FactorGraphModel FactorGraphSpec FunctionsProofs.
#[local] Arguments nth_error : simpl never.

Lemma mapM_rd_all' : forall (l : list nat), mapM (rd l) (seq 0 (length l)) = Ret l.
Proof. intros l. apply mapM_rd_all. Qed.

Section G.
Variable g : fgraph.
Hypothesis WF : wf_fgraph g.
Notation nv := (length (g_adj g)).
Notation nf := (length (g_fac g)).

Definition vars (f : nat) : list nat := nth f (g_fac g) [].
Definition facs (v : nat) : list nat := nth v (g_adj g) [].

Lemma vars_nth : forall f, f < nf -> nth_error (g_fac g) f = Some (vars f).
Proof. intros f H. apply nth_error_nth'. auto. Qed.
Lemma facs_nth : forall v, v < nv -> nth_error (g_adj g) v = Some (facs v).
Proof. intros f H. apply nth_error_nth'. auto. Qed.

Lemma incident_iff : forall f v, incident g f v <-> f < nf /\ In v (vars f).
Proof.
  clear WF. intros f v. split.
  - intros [vs [E H]]. assert (f < nf) by (apply nth_error_Some; congruence). split; auto.
    rewrite vars_nth in E by auto. injection E as <-. auto.
  - intros [H1 H2]. exists (vars f). split; auto. apply vars_nth. auto.
Qed.
Lemma incident_lt : forall f v, incident g f v -> f < nf /\ v < nv.
Proof.
  intros f v H. destruct WF as [W _]. pose proof H as H0. apply incident_iff in H0. destruct H0 as [H1 H2]. split; auto.
  destruct (W f (vars f)) as [_ W2]; auto. apply vars_nth. auto.
Qed.
Lemma vars_sorted : forall f, StronglySorted lt (vars f).
Proof.
  intros f. destruct (Nat.lt_ge_cases f nf) as [H|H].
  - destruct WF as [W _]. destruct (W f (vars f)); auto. apply vars_nth. auto.
  - unfold vars. rewrite nth_overflow by auto. constructor.
Qed.
Lemma vars_lt : forall f v, In v (vars f) -> v < nv.
Proof.
  intros f v H. destruct (Nat.lt_ge_cases f nf) as [H0|H0].
  - destruct WF as [W _]. destruct (W f (vars f)) as [_ W2]; auto. apply vars_nth. auto.
  - unfold vars in H. rewrite nth_overflow in H by auto. destruct H.
Qed.
Lemma facs_iff : forall v f, v < nv -> (In f (facs v) <-> incident g f v).
Proof. intros v f H. destruct WF as [_ W]. destruct (W v (facs v)) as [_ W2]; auto. apply facs_nth. auto. Qed.
Lemma facs_sorted : forall v, StronglySorted lt (facs v).
Proof.
  intros v. destruct (Nat.lt_ge_cases v nv) as [H|H].
  - destruct WF as [_ W]. destruct (W v (facs v)); auto. apply facs_nth. auto.
  - unfold facs. rewrite nth_overflow by auto. constructor.
Qed.
Lemma facs_lt : forall v f, v < nv -> In f (facs v) -> f < nf.
Proof. intros v f H H0. apply facs_iff in H0; auto. apply incident_lt in H0. tauto. Qed.

Lemma sorted_NoDup : forall l, StronglySorted lt l -> NoDup l.
Proof.
  clear WF. intros l H. induction H as [|x l H IH HF]; constructor; auto. rewrite Forall_forall in HF. intro H0. apply HF in H0. lia.
Qed.

Lemma orderOf_Ret : forall f, f < nf -> orderOf g f = Ret (length (vars f)).
Proof. intros f H. unfold orderOf, rd. rewrite vars_nth; auto. Qed.
Lemma degreeOf_Ret : forall v, v < nv -> degreeOf g v = Ret (length (facs v)).
Proof. intros f H. unfold degreeOf, rd. rewrite facs_nth; auto. Qed.
Lemma variableOfFactor_eq : forall f j, f < nf -> variableOfFactor g f j = rd (vars f) j.
Proof. intros f j H. unfold variableOfFactor, rd at 1. rewrite vars_nth; auto. Qed.
Lemma factorOfVariable_eq : forall v j, v < nv -> factorOfVariable g v j = rd (facs v) j.
Proof. intros f j H. unfold factorOfVariable, rd at 1. rewrite facs_nth; auto. Qed.

Lemma variablesOfFactor_Ret : forall f, f < nf -> variablesOfFactor g f = Ret (vars f).
Proof.
  intros f H. unfold variablesOfFactor. rewrite orderOf_Ret by auto. cbn [bind].
  rewrite (mapM_ext _ _ (variableOfFactor g f) (rd (vars f))). { apply mapM_rd_all'. }
  intros j Hj. apply variableOfFactor_eq. auto.
Qed.
Lemma factorsOfVariable_Ret : forall v, v < nv -> factorsOfVariable g v = Ret (facs v).
Proof.
  intros f H. unfold factorsOfVariable. rewrite degreeOf_Ret by auto. cbn [bind].
  rewrite (mapM_ext _ _ (factorOfVariable g f) (rd (facs f))). { apply mapM_rd_all'. }
  intros j Hj. apply factorOfVariable_eq. auto.
Qed.

(** ** Connections *)
Lemma swo_nat : strict_weak_order nat Nat.ltb.
Proof.
  clear WF. split.
  - intros a. apply Nat.ltb_irrefl.
  - intros a b c H1 H2. apply Nat.ltb_lt in H1, H2. apply Nat.ltb_lt. lia.
  - intros a b c H1 H2 H3 H4. apply Nat.ltb_ge in H1, H2, H3, H4. split; apply Nat.ltb_ge; lia.
Qed.
Lemma sorted_asc : forall l, StronglySorted lt l <-> ascending nat Nat.ltb l.
Proof.
  clear WF. intros l. split; intro H; induction H as [|x l H IH HF]; constructor; auto;
  (eapply Forall_impl; [|exact HF]); intros a Ha; [apply Nat.ltb_lt|apply Nat.ltb_lt in Ha]; auto.
Qed.

Lemma binary_search : forall l x, StronglySorted lt l ->
  exists b, (i <- ras_lower_bound nat Nat.ltb l x ;; if i =? length l then Ret false else y <- rd l i ;; Ret (negb (x <? y))) = Ret b /\
    (b = true <-> In x l).
Proof.
  clear WF. intros l x H. apply sorted_asc in H. destruct (lower_spec nat Nat.ltb swo_nat l x H) as [i [E [P1 [P2 P3]]]]. rewrite E. cbn [bind].
  destruct (Nat.eqb_spec i (length l)) as [->|N].
  - exists false. split; auto. split; [discriminate|]. intro I. apply In_nth_error in I. destruct I as [j Hj].
    assert (j < length l) by (apply nth_error_Some; congruence). apply P2 in Hj; auto. rewrite Nat.ltb_irrefl in Hj. discriminate.
  - destruct (nth_error l i) as [y|] eqn:Ey; [|apply nth_error_None in Ey; lia]. rewrite (rd_Ret _ _ _ y) by auto. cbn [bind].
    exists (negb (x <? y)). split; auto. assert (P := P3 _ _ Ey (Nat.le_refl _)). apply Nat.ltb_ge in P.
    destruct (Nat.ltb_spec x y) as [L|L]; cbn [negb]; split; intro Hx; try discriminate; auto.
    + exfalso. apply In_nth_error in Hx. destruct Hx as [j Hj]. destruct (Nat.lt_ge_cases j i) as [C|C].
      * apply P2 in Hj; auto. rewrite Nat.ltb_irrefl in Hj. discriminate.
      * destruct (Nat.eq_dec i j) as [->|N']. { assert (x = y) by congruence. lia. }
        pose proof (asc_nth nat Nat.ltb l H i j y x Ey Hj ltac:(lia)) as Q. apply Nat.ltb_lt in Q. lia.
    + assert (x = y) by lia. subst. eapply nth_error_In; eauto.
Qed.

Lemma common_spec : forall fuel l1 l2, StronglySorted lt l1 -> StronglySorted lt l2 -> length l1 + length l2 < fuel ->
  exists b, common fuel l1 l2 = Ret b /\ (b = true <-> exists x, In x l1 /\ In x l2).
Proof.
  clear WF. induction fuel as [|fuel IH]; intros l1 l2 H1 H2 L; [lia|]. cbn [common].
  destruct l1 as [|x t1]. { exists false. split; auto. split; [discriminate|]. intros [x [[] _]]. }
  destruct l2 as [|y t2]. { exists false. split; auto. split; [discriminate|]. intros [z [_ []]]. }
  pose proof H1 as H1'. pose proof H2 as H2'. apply StronglySorted_inv in H1', H2'. destruct H1' as [S1 F1], H2' as [S2 F2]. rewrite Forall_forall in F1, F2.
  cbn [length] in L.
  destruct (Nat.ltb_spec x y) as [C|C].
  - destruct (IH t1 (y :: t2)) as [b [E B]]; auto; [cbn [length]; lia|]. exists b. split; auto. rewrite B. split; intros [z [Z1 Z2]].
    + exists z. split; [right|]; auto.
    + exists z. split; auto. destruct Z1 as [->|Z1]; auto. exfalso. destruct Z2 as [->|Z2]; [lia|]. apply F2 in Z2. lia.
  - destruct (Nat.eqb_spec x y) as [->|N]. { exists true. split; auto. split; auto. intros _. exists y. split; left; auto. }
    destruct (IH (x :: t1) t2) as [b [E B]]; auto; [cbn [length]; lia|]. exists b. split; auto. rewrite B. split; intros [z [Z1 Z2]].
    + exists z. split; [|right]; auto.
    + exists z. split; auto. destruct Z2 as [->|Z2]; auto. exfalso. destruct Z1 as [->|Z1]; [lia|]. apply F1 in Z1. lia.
Qed.

(** ** Loops *)
Lemma foldO_app : forall A S (f : S -> A -> outcome (option S)) l1 l2 s,
  foldO f (l1 ++ l2) s = (o <- foldO f l1 s ;; match o with Some s' => foldO f l2 s' | None => Ret None end).
Proof.
  clear WF. intros A S f l1 l2. induction l1 as [|a l1 IH]; intros s; cbn [app foldO bind]; auto.
  destruct (f s a) as [[s'|]| | |]; cbn [bind]; auto.
Qed.
Lemma foldM_flat_map : forall A B S (f : S -> B -> outcome S) (h : A -> list B) l s,
  foldM f (flat_map h l) s = foldM (fun s a => foldM f (h a) s) l s.
Proof.
  clear WF. intros A B S f h l. induction l as [|a l IH]; intros s; cbn [flat_map foldM]; auto. rewrite foldM_app.
  destruct (foldM f (h a) s); cbn [bind]; auto.
Qed.
Lemma foldM_map : forall A B S (f : S -> B -> outcome S) (h : A -> B) l s,
  foldM f (map h l) s = foldM (fun s a => f s (h a)) l s.
Proof. clear WF. intros A B S f h l. induction l as [|a l IH]; intros s; cbn [map foldM]; auto. destruct (f s (h a)); cbn [bind]; auto. Qed.
Lemma foldM_ext : forall A S (f f' : S -> A -> outcome S) l, (forall a s, In a l -> f s a = f' s a) -> forall s, foldM f l s = foldM f' l s.
Proof.
  clear WF. intros A S f f' l H. induction l as [|a l IH]; intros s; cbn [foldM]; auto. rewrite H by (left; auto).
  destruct (f' s a); cbn [bind]; auto. apply IH. intros. apply H. right; auto.
Qed.

(** Ordered pairs of positions j < k. *)
Definition triples : list (nat * nat * nat) :=
  flat_map (fun f => flat_map (fun j => map (fun k => (f, j, k)) (seq (j + 1) (length (vars f) - (j + 1)))) (seq 0 (length (vars f)))) (seq 0 nf).

Lemma triples_iff : forall f j k, In (f, j, k) triples <-> f < nf /\ j < k /\ k < length (vars f).
Proof.
  clear WF. intros f j k. unfold triples. rewrite in_flat_map. split.
  - intros [f' [Hf H]]. apply in_seq in Hf. apply in_flat_map in H. destruct H as [j' [Hj H]]. apply in_seq in Hj.
    apply in_map_iff in H. destruct H as [k' [E H]]. apply in_seq in H. inversion E; subst. lia.
  - intros [H1 [H2 H3]]. exists f. split; [apply in_seq; lia|]. apply in_flat_map. exists j. split; [apply in_seq; lia|].
    apply in_map_iff. exists k. split; auto. apply in_seq. lia.
Qed.

Lemma nested_triples : forall S (step : S -> nat -> nat -> outcome S) s,
  foldM (fun m f => n <- orderOf g f ;;
    foldM (fun m j => foldM (fun m k => v1 <- variableOfFactor g f j ;; v2 <- variableOfFactor g f k ;; step m v1 v2)
       (seq (j + 1) (n - (j + 1))) m) (seq 0 n) m) (seq 0 (numberOfFactors g)) s
  = foldM (fun m t => step m (nth (snd (fst t)) (vars (fst (fst t))) 0) (nth (snd t) (vars (fst (fst t))) 0)) triples s.
Proof.
  clear WF. intros S step s. unfold triples. rewrite foldM_flat_map. apply foldM_ext. intros f m Hf. apply in_seq in Hf. unfold numberOfFactors in Hf.
  rewrite orderOf_Ret by lia. cbn [bind]. rewrite foldM_flat_map. apply foldM_ext. intros j m' Hj. apply in_seq in Hj.
  rewrite foldM_map. apply foldM_ext. intros k m2 Hk. apply in_seq in Hk. rewrite !variableOfFactor_eq by lia. cbn [fst snd].
  rewrite (rd_nth _ (vars f) j 0) by lia. cbn [bind]. rewrite (rd_nth _ (vars f) k 0) by lia. reflexivity.
Qed.

(** A loop that adds pairs to a symmetric relation. *)
Lemma pair_loop : forall S (step : S -> nat -> nat -> outcome S) (I : S -> Prop) (R : S -> nat -> nat -> Prop),
  (forall s u v, I s -> u < nv -> v < nv -> exists s', step s u v = Ret s' /\ I s' /\
     forall a b, R s' a b <-> R s a b \/ (a = u /\ b = v) \/ (a = v /\ b = u)) ->
  forall s, I s -> (forall a b, ~ R s a b) ->
  exists s', foldM (fun m t => step m (nth (snd (fst t)) (vars (fst (fst t))) 0) (nth (snd t) (vars (fst (fst t))) 0)) triples s = Ret s' /\
    I s' /\ forall a b, R s' a b <-> a <> b /\ share g a b.
Proof.
  intros S step I R Hstep s Is R0.
  assert (Q : forall l s, I s -> (forall t, In t l -> In t triples) ->
    exists s', foldM (fun m t => step m (nth (snd (fst t)) (vars (fst (fst t))) 0) (nth (snd t) (vars (fst (fst t))) 0)) l s = Ret s' /\ I s' /\
      forall a b, R s' a b <-> R s a b \/ exists f j k, In (f, j, k) l /\
         ((a = nth j (vars f) 0 /\ b = nth k (vars f) 0) \/ (a = nth k (vars f) 0 /\ b = nth j (vars f) 0))).
  { clear s Is R0. induction l as [|[[f j] k] l IH]; intros s Is Hl.
    - exists s. cbn [foldM]. repeat split; auto. intros [H|[? [? [? [[] _]]]]]; auto.
    - assert (T : In (f, j, k) triples) by (apply Hl; left; auto). apply triples_iff in T. destruct T as [T1 [T2 T3]].
      cbn [foldM fst snd].
      destruct (Hstep s (nth j (vars f) 0) (nth k (vars f) 0) Is) as [s1 [E1 [I1 R1]]].
      { apply (vars_lt f). apply nth_In. lia. } { apply (vars_lt f). apply nth_In. lia. }
      rewrite E1. cbn [bind]. destruct (IH s1 I1) as [s2 [E2 [I2 R2]]]. { intros t Ht. apply Hl. right; auto. }
      exists s2. split; auto. split; auto. intros a b. rewrite R2, R1. split.
      + intros [[H|H]|[f' [j' [k' [H H']]]]]; auto.
        * right. exists f, j, k. split; [left; auto|tauto].
        * right. exists f', j', k'. split; [right; auto|auto].
      + intros [H|[f' [j' [k' [[H|H] H']]]]]; auto.
        * inversion H; subst. left. right. tauto.
        * right. exists f', j', k'. auto. }
  destruct (Q triples s Is) as [s' [E [I' R']]]; auto. exists s'. split; auto. split; auto. intros a b. rewrite R'. split.
  - intros [H|[f [j [k [H H']]]]]. { destruct (R0 _ _ H). } apply triples_iff in H. destruct H as [H1 [H2 H3]].
    assert (X : nth j (vars f) 0 <> nth k (vars f) 0).
    { intro X. assert (j = k); [|lia]. pose proof (sorted_NoDup _ (vars_sorted f)) as ND. eapply NoDup_nth; eauto; lia. }
    assert (J : In (nth j (vars f) 0) (vars f)) by (apply nth_In; lia). assert (K : In (nth k (vars f) 0) (vars f)) by (apply nth_In; lia).
    destruct H' as [[-> ->]|[-> ->]]; split; auto; exists f; split; apply incident_iff; auto.
  - intros [N [f [H1 H2]]]. right. apply incident_iff in H1, H2. destruct H1 as [Hf H1], H2 as [_ H2].
    apply (In_nth _ _ 0) in H1, H2. destruct H1 as [j [Hj E1]], H2 as [k [Hk E2]].
    destruct (Nat.lt_trichotomy j k) as [C|[C|C]].
    + exists f, j, k. split; [apply triples_iff; auto|]. left. auto.
    + subst. congruence.
    + exists f, k, j. split; [apply triples_iff; auto|]. right. auto.
Qed.

(** *** Matrix *)
Definition entry (m : list (list bool)) (i j : nat) : Prop := exists r, nth_error m i = Some r /\ nth_error r j = Some true.
Definition square (n : nat) (m : list (list bool)) : Prop := length m = n /\ Forall (fun r => length r = n) m.

Lemma mat_set_spec : forall n m i j, square n m -> i < n -> j < n ->
  exists m', mat_set m i j = Ret m' /\ square n m' /\ forall a b, entry m' a b <-> entry m a b \/ (a = i /\ b = j).
Proof.
  clear WF. intros n m i j [L F] Hi Hj. destruct (nth_error m i) as [r|] eqn:E; [|apply nth_error_None in E; lia].
  assert (Lr : length r = n). { rewrite Forall_forall in F. apply F. eapply nth_error_In; eauto. }
  unfold mat_set. rewrite (rd_Ret _ _ _ r) by auto. cbn [bind]. rewrite wr_Ret by lia. cbn [bind]. rewrite wr_Ret by lia.
  exists (upd m i (upd r j true)). split; auto. split.
  - split; [rewrite length_upd; auto|]. apply Forall_forall. intros x Hx. apply In_nth_error in Hx. destruct Hx as [k Hk].
    destruct (Nat.eq_dec k i) as [->|N].
    + rewrite nth_error_upd_eq in Hk by lia. injection Hk as <-. rewrite length_upd. auto.
    + rewrite nth_error_upd_neq in Hk by auto. rewrite Forall_forall in F. apply F. eapply nth_error_In; eauto.
  - intros a b. unfold entry. destruct (Nat.eq_dec a i) as [->|N].
    + rewrite nth_error_upd_eq by lia. split.
      * intros [x [H1 H2]]. injection H1 as <-. destruct (Nat.eq_dec b j) as [->|N]; [right; auto|].
        rewrite nth_error_upd_neq in H2 by auto. left. eauto.
      * intros [[x [H1 H2]]|[_ ->]].
        -- exists (upd r j true). split; auto. rewrite E in H1. injection H1 as <-. destruct (Nat.eq_dec b j) as [->|N].
           ++ rewrite nth_error_upd_eq by lia. auto. ++ rewrite nth_error_upd_neq by auto. auto.
        -- exists (upd r j true). split; auto. rewrite nth_error_upd_eq by lia. auto.
    + rewrite nth_error_upd_neq by auto. split; [auto|]. intros [H|[H _]]; [auto|congruence].
Qed.

Lemma matrix_spec : exists m, variableAdjacencyMatrix g = Ret m /\ square nv m /\ forall a b, entry m a b <-> a <> b /\ share g a b.
Proof.
  unfold variableAdjacencyMatrix.
  rewrite (nested_triples _ (fun m v1 v2 => m <- mat_set m v1 v2 ;; mat_set m v2 v1)).
  apply (pair_loop _ (fun m v1 v2 => m <- mat_set m v1 v2 ;; mat_set m v2 v1) (square nv) entry).
  - intros m u v Sq Hu Hv. destruct (mat_set_spec nv m u v Sq Hu Hv) as [m1 [E1 [S1 R1]]]. rewrite E1. cbn [bind].
    destruct (mat_set_spec nv m1 v u S1 Hv Hu) as [m2 [E2 [S2 R2]]]. exists m2. split; auto. split; auto. intros a b. rewrite R2, R1. tauto.
  - unfold square, numberOfVariables. split; [apply repeat_length|]. apply Forall_forall. intros r Hr. apply repeat_spec in Hr. subst. apply repeat_length.
  - intros a b [r [H1 H2]]. apply nth_error_In in H1. apply repeat_spec in H1. subst. apply nth_error_In in H2. apply repeat_spec in H2. discriminate.
Qed.

(** *** Lists *)
Definition lists_ok (n : nat) (out : list (list nat)) : Prop := length out = n /\ Forall (StronglySorted lt) out.
Definition member (out : list (list nat)) (i x : nat) : Prop := exists s, nth_error out i = Some s /\ In x s.

Lemma set_at_spec : forall n out i x, lists_ok n out -> i < n ->
  exists out', set_at out i x = Ret out' /\ lists_ok n out' /\ forall a b, member out' a b <-> member out a b \/ (a = i /\ b = x).
Proof.
  clear WF. intros n out i x [L F] Hi. destruct (nth_error out i) as [s|] eqn:E; [|apply nth_error_None in E; lia].
  assert (Ss : StronglySorted lt s). { rewrite Forall_forall in F. apply F. eapply nth_error_In; eauto. }
  unfold set_at. rewrite (rd_Ret _ _ _ s) by auto. cbn [bind].
  destruct (insert_spec nat Nat.ltb swo_nat s x) as [v' [p [ins [E' [A [_ [_ [_ [_ C]]]]]]]]]. { apply sorted_asc. auto. }
  rewrite E'. cbn [bind fst]. rewrite wr_Ret by lia. exists (upd out i v'). split; auto.
  assert (C' : forall q, In q v' <-> In q s \/ q = x).
  { assert (X : forall l q, contains nat Nat.ltb l q <-> In q l).
    { intros l q. split.
      - intros [y [Hy [Y1 Y2]]]. apply Nat.ltb_ge in Y1, Y2. assert (q = y) by lia. subst. auto.
      - intros H. exists q. split; auto. split; apply Nat.ltb_irrefl. }
    intros q. rewrite <- !X, C. split; intros [H|H]; auto; right.
    - destruct H as [Y1 Y2]. apply Nat.ltb_ge in Y1, Y2. lia. - subst. split; apply Nat.ltb_irrefl. }
  split.
  - split; [rewrite length_upd; auto|]. apply Forall_forall. intros z Hz. apply In_nth_error in Hz. destruct Hz as [k Hk].
    destruct (Nat.eq_dec k i) as [->|N].
    + rewrite nth_error_upd_eq in Hk by lia. injection Hk as <-. apply sorted_asc. auto.
    + rewrite nth_error_upd_neq in Hk by auto. rewrite Forall_forall in F. apply F. eapply nth_error_In; eauto.
  - intros a b. unfold member. destruct (Nat.eq_dec a i) as [->|N].
    + rewrite nth_error_upd_eq by lia. split.
      * intros [z [H1 H2]]. injection H1 as <-. apply C' in H2. destruct H2 as [H2| ->]; [left; eauto|right; auto].
      * intros [[z [H1 H2]]|[_ ->]]; exists v'; (split; [auto|]); apply C'; auto. rewrite E in H1. injection H1 as <-. auto.
    + rewrite nth_error_upd_neq by auto. split; [auto|]. intros [H|[H _]]; [auto|congruence].
Qed.

Lemma list_spec : exists out, variableAdjacencyList g = Ret out /\ lists_ok nv out /\ forall a b, member out a b <-> a <> b /\ share g a b.
Proof.
  unfold variableAdjacencyList.
  rewrite (nested_triples _ (fun m v1 v2 => m <- set_at m v1 v2 ;; set_at m v2 v1)).
  apply (pair_loop _ (fun m v1 v2 => m <- set_at m v1 v2 ;; set_at m v2 v1) (lists_ok nv) member).
  - intros m u v Sq Hu Hv. destruct (set_at_spec nv m u v Sq Hu) as [m1 [E1 [S1 R1]]]. rewrite E1. cbn [bind].
    destruct (set_at_spec nv m1 v u S1 Hv) as [m2 [E2 [S2 R2]]]. exists m2. split; auto. split; auto. intros a b. rewrite R2, R1. tauto.
  - unfold lists_ok, numberOfVariables. split; [apply repeat_length|]. apply Forall_forall. intros r Hr. apply repeat_spec in Hr. subst. constructor.
  - intros a b [r [H1 H2]]. apply nth_error_In in H1. apply repeat_spec in H1. subst. destruct H2.
Qed.

(** ** Orders *)
Lemma maxFactorOrder_spec : exists m, maxFactorOrder g = Ret m /\ Forall (fun vs => length vs <= m) (g_fac g) /\
  (m = 0 \/ exists vs, In vs (g_fac g) /\ length vs = m).
Proof.
  clear WF. unfold maxFactorOrder, numberOfFactors.
  assert (Q : forall k m0, k <= nf -> exists m, foldM (fun m i => n <- orderOf g i ;; Ret (if m <? n then n else m)) (seq (nf - k) k) m0 = Ret m /\
    m0 <= m /\ (forall f, nf - k <= f < nf -> length (vars f) <= m) /\ (m = m0 \/ exists f, f < nf /\ length (vars f) = m)).
  { induction k as [|k IH]; intros m0 Hk. { exists m0. cbn. repeat split; auto. intros; lia. }
    cbn [seq foldM]. rewrite orderOf_Ret by lia. cbn [bind]. replace (S (nf - S k)) with (nf - k) by lia.
    destruct (IH (if m0 <? length (vars (nf - S k)) then length (vars (nf - S k)) else m0)) as [m [E [H1 [H2 H3]]]]; [lia|].
    exists m. split; auto. destruct (Nat.ltb_spec m0 (length (vars (nf - S k)))) as [C|C].
    - split; [lia|]. split.
      + intros f Hf. destruct (Nat.eq_dec f (nf - S k)) as [->|N]; [lia|]. apply H2. lia.
      + right. destruct H3 as [-> |H3]; auto. exists (nf - S k). split; auto. lia.
    - split; [lia|]. split; auto. intros f Hf. destruct (Nat.eq_dec f (nf - S k)) as [->|N]; [lia|]. apply H2. lia. }
  destruct (Q nf 0 (Nat.le_refl _)) as [m [E [_ [H2 H3]]]]. rewrite Nat.sub_diag in E. exists m. split; auto. split.
  - apply Forall_forall. intros vs Hvs. apply (In_nth _ _ []) in Hvs. destruct Hvs as [f [Hf <-]]. apply H2. lia.
  - destruct H3 as [-> |[f [Hf H3]]]; auto. right. exists (vars f). split; auto. apply nth_In. auto.
Qed.

Lemma maxFactorOrderLe_spec : forall k, exists b, maxFactorOrderLe g k = Ret b /\ (b = true <-> Forall (fun vs => length vs <= k) (g_fac g)).
Proof.
  clear WF. intros k. unfold maxFactorOrderLe, numberOfFactors.
  assert (Q : forall n, n <= nf -> exists o, foldO (fun (_ : unit) i => n <- orderOf g i ;; Ret (if k <? n then None else Some tt)) (seq (nf - n) n) tt = Ret o /\
     (o <> None <-> forall f, nf - n <= f < nf -> length (vars f) <= k)).
  { induction n as [|n IH]; intros Hn. { exists (Some tt). cbn. split; auto. split; [|discriminate]. intros; lia. }
    cbn [seq foldO]. rewrite orderOf_Ret by lia. cbn [bind]. destruct (Nat.ltb_spec k (length (vars (nf - S n)))) as [C|C].
    - exists None. split; auto. split; [congruence|]. intros H. specialize (H (nf - S n)). lia.
    - replace (S (nf - S n)) with (nf - n) by lia. destruct IH as [o [E H]]; [lia|]. exists o. split; auto. rewrite H. split.
      + intros H' f Hf. destruct (Nat.eq_dec f (nf - S n)) as [->|N]; [lia|]. apply H'. lia.
      + intros H' f Hf. apply H'. lia. }
  destruct (Q nf (Nat.le_refl _)) as [o [E H]]. rewrite Nat.sub_diag in E. rewrite E. cbn [bind]. eexists. split; [reflexivity|].
  rewrite Forall_forall. transitivity (o <> None). { destruct o; split; congruence. } rewrite H. split.
  - intros H' vs Hvs. apply (In_nth _ _ []) in Hvs. destruct Hvs as [f [Hf <-]]. apply H'. lia.
  - intros H' f Hf. apply H'. apply nth_In. lia.
Qed.

(** Factors of order n of a variable. *)
Definition nth_facs (v n : nat) : list nat := filter (fun f => length (vars f) =? n) (facs v).

Lemma nthOrder_count : forall v n, v < nv -> numberOfNthOrderFactorsOfVariable g v n = Ret (length (nth_facs v n)).
Proof.
  intros v n H. unfold numberOfNthOrderFactorsOfVariable, nth_facs. rewrite factorsOfVariable_Ret by auto. cbn [bind].
  assert (F := fun f => facs_lt v f H). revert F. generalize (facs v) as l.
  assert (Q : forall l c, (forall f, In f l -> f < nf) ->
     foldM (fun c f => k <- orderOf g f ;; Ret (if k =? n then S c else c)) l c = Ret (c + length (filter (fun f => length (vars f) =? n) l))).
  { induction l as [|f l IH]; intros c Hl; cbn [foldM filter length]. { f_equal. lia. }
    rewrite orderOf_Ret by (apply Hl; left; auto). cbn [bind]. rewrite IH by (intros; apply Hl; right; auto).
    destruct (length (vars f) =? n); cbn [length]; f_equal; lia. }
  intros l Hl. rewrite Q by auto. auto.
Qed.

Lemma nthOrder_ids : forall v n, v < nv -> nthOrderFactorsOfVariable g v n = Ret (rev (nth_facs v n)).
Proof.
  intros v n H. unfold nthOrderFactorsOfVariable. rewrite nthOrder_count by auto. cbn [bind]. unfold nth_facs. rewrite factorsOfVariable_Ret by auto. cbn [bind].
  assert (F := fun f => facs_lt v f H). revert F. generalize (facs v) as l.
  assert (Q : forall l c ids, (forall f, In f l -> f < nf) -> length (filter (fun f => length (vars f) =? n) l) = c -> c <= length ids ->
     foldM (fun (p : nat * list nat) f => k <- orderOf g f ;; if k =? n then ids <- wr (snd p) (fst p - 1) f ;; Ret (fst p - 1, ids) else Ret p) l (c, ids)
     = Ret (0, rev (filter (fun f => length (vars f) =? n) l) ++ skipn c ids)).
  { induction l as [|f l IH]; intros c ids Hl Hc Hi; cbn [foldM filter length rev app] in *. { subst. reflexivity. }
    rewrite orderOf_Ret by (apply Hl; left; auto). cbn [bind]. destruct (length (vars f) =? n) eqn:En; cbn [length] in *.
    - cbn [fst snd]. rewrite wr_Ret by lia. cbn [bind]. rewrite IH; [|intros; apply Hl; right; auto|lia|rewrite length_upd; lia].
      cbn [rev]. rewrite <- app_assoc. do 3 f_equal. cbn [app]. destruct c as [|c]; [lia|]. cbn [Nat.sub]. rewrite Nat.sub_0_r. clear -Hi.
      revert ids Hi. induction c as [|c IH]; intros [|x ids] Hi; cbn [length] in Hi; try lia; auto. cbn [upd]. change (skipn (S c) (x :: upd ids c f)) with (skipn c (upd ids c f)).
      change (skipn (S (S c)) (x :: ids)) with (skipn (S c) ids). apply IH. lia.
    - apply IH; auto. intros; apply Hl; right; auto. }
  intros l Hl. rewrite Q; auto; [|rewrite repeat_length; auto]. cbn [bind snd].
  rewrite skipn_all2 by (rewrite repeat_length; auto). rewrite app_nil_r. reflexivity.
Qed.
End G.
