(** Proofs for the graphical model: representation invariant and simulation of the reference semantics. *)
From Verif Require Import Base Values RandomAccessSetModel RandomAccessSetSpec RandomAccessSetProofs GmModel GmSpec ShapeSpec IndexingProofs.
From Coq Require Import Sorted.
#[local] Arguments nth_error : simpl never.
#[local] Arguments seq : simpl never.

Lemma nat_swo : strict_weak_order nat Nat.ltb.
Proof.
  split; intros; repeat match goal with H : _ = true |- _ => apply Nat.ltb_lt in H | H : _ = false |- _ => apply Nat.ltb_ge in H end;
  rewrite ?Nat.ltb_lt, ?Nat.ltb_ge in *; try lia.
Qed.

Lemma nat_contains : forall l k, contains nat Nat.ltb l k <-> In k l.
Proof.
  intros l k. unfold contains, eqv. split.
  - intros [x [H [A B]]]. apply Nat.ltb_ge in A, B. replace k with x by lia. auto.
  - intros H. exists k. rewrite Nat.ltb_irrefl. auto.
Qed.

Lemma ascending_lt : forall l, ascending nat Nat.ltb l <-> StronglySorted lt l.
Proof.
  intros l. unfold ascending. split; intros H; induction H; constructor; auto;
  (eapply Forall_impl; [|eassumption]); cbn; intros; apply Nat.ltb_lt; auto.
Qed.

Lemma sorted_ext : forall l1 l2, StronglySorted lt l1 -> StronglySorted lt l2 ->
  (forall x, In x l1 <-> In x l2) -> l1 = l2.
Proof.
  induction l1 as [|a l1 IH]; intros l2 H1 H2 E.
  - destruct l2 as [|b l2]; auto. exfalso. apply (E b). left. auto.
  - destruct l2 as [|b l2]. { exfalso. apply (E a). left. auto. }
    inversion H1 as [|? ? S1 F1]. inversion H2 as [|? ? S2 F2]. subst. rewrite Forall_forall in F1, F2.
    assert (a = b).
    { destruct (proj1 (E a)) as [|Ha]; [left; auto|auto|]. destruct (proj2 (E b)) as [|Hb]; [left; auto|auto|].
      apply F2 in Ha. apply F1 in Hb. lia. }
    subst b. f_equal. apply IH; auto. intros x. split; intros Hx.
    + destruct (proj1 (E x)); [right; auto| |auto]. subst. apply F1 in Hx. lia.
    + destruct (proj2 (E x)); [right; auto| |auto]. subst. apply F2 in Hx. lia.
Qed.

Lemma sorted_snoc : forall l k, StronglySorted lt l -> Forall (fun x => x < k) l -> StronglySorted lt (l ++ [k]).
Proof.
  intros l k H. induction H; intros F; cbn; [repeat constructor|].
  apply Forall_cons_iff in F. destruct F as [F1 F2]. constructor; auto.
  apply Forall_app. split; auto.
Qed.

(** Inserting a number larger than all others appends it. *)
Lemma ras_insert_larger : forall s k, StronglySorted lt s -> Forall (fun x => x < k) s ->
  exists i b, ras_insert nat Nat.ltb s k = Ret (s ++ [k], i, b).
Proof.
  intros s k HS HF.
  destruct (insert_spec nat Nat.ltb nat_swo s k (proj2 (ascending_lt s) HS)) as [v' [i [ins [E [A [I1 [_ [I2 [I3 _]]]]]]]]].
  assert (ins = true) as ->.
  { apply I1. rewrite nat_contains. intros Hin. rewrite Forall_forall in HF. apply HF in Hin. lia. }
  destruct (I3 eq_refl) as [_ M].
  assert (v' = s ++ [k]) as ->.
  { apply sorted_ext; [apply ascending_lt; auto|apply sorted_snoc; auto|].
    intros x. rewrite M, in_app_iff. cbn. intuition. }
  eauto.
Qed.

Lemma adj_insert_larger : forall adj v s k, nth_error adj v = Some s -> StronglySorted lt s -> Forall (fun x => x < k) s ->
  adj_insert adj v k = Ret (upd adj v (s ++ [k])).
Proof.
  intros adj v s k E HS HF. unfold adj_insert. rewrite (rd_Ret _ _ _ _ E). cbn [bind].
  destruct (ras_insert_larger s k HS HF) as [i [b R]]. rewrite R. cbn [bind].
  apply wr_Ret. apply nth_error_Some. congruence.
Qed.

Definition mem (v : nat) (l : list nat) : bool := existsb (Nat.eqb v) l.
Lemma mem_In : forall v l, mem v l = true <-> In v l.
Proof.
  intros v l. unfold mem. rewrite existsb_exists. split.
  - intros [x [H E]]. apply Nat.eqb_eq in E. subst. auto.
  - intros H. exists v. rewrite Nat.eqb_refl. auto.
Qed.
Lemma mem_false : forall v l, mem v l = false <-> ~ In v l.
Proof. intros v l. rewrite <- mem_In. destruct (mem v l); split; congruence. Qed.

Lemma addFactor_loop_valid : forall nv fi ins vis prev adj,
  length adj = nv ->
  StronglySorted lt vis -> Forall (fun v => v < nv) vis ->
  (match prev with None => True | Some p => Forall (fun v => p < v) vis end) ->
  (forall v s, nth_error adj v = Some s -> In v vis -> StronglySorted lt s /\ Forall (fun x => x < fi) s) ->
  exists adj', addFactor_loop nv fi ins prev vis adj = Ret (adj', false) /\ length adj' = nv /\
    (forall v, nth_error adj' v =
       match nth_error adj v with
       | Some s => Some (if ins && mem v vis then s ++ [fi] else s)
       | None => None end).
Proof.
  intros nv fi ins vis. induction vis as [|v r IH]; intros prev adj Hl HS HF HP HA.
  - exists adj. cbn. split; auto. split; auto. intros v. rewrite andb_false_r. destruct (nth_error adj v); auto.
  - inversion HS as [|? ? S1 F1]. subst. apply Forall_cons_iff in HF. destruct HF as [Hv HF].
    assert (Hn : (match prev with None => false | Some p => negb (p <? v) end) = false).
    { destruct prev as [p|]; auto. apply Forall_cons_iff in HP. destruct HP as [P _].
      apply Nat.ltb_lt in P. rewrite P. auto. }
    cbn [addFactor_loop]. rewrite Hn. assert (v <? length adj = true) as -> by (apply Nat.ltb_lt; auto). cbn [negb].
    destruct (nth_error_lt _ adj v Hv) as [s Es].
    destruct (HA v s Es (or_introl eq_refl)) as [Ss Fs].
    assert (NI : ~ In v r) by (intros Hin; rewrite Forall_forall in F1; apply F1 in Hin; lia).
    set (adj1 := if ins then upd adj v (s ++ [fi]) else adj).
    assert ((if ins then adj_insert adj v fi else Ret adj) = Ret adj1) as ->.
    { unfold adj1. destruct ins; auto. apply adj_insert_larger; auto. }
    cbn [bind].
    assert (L1 : length adj1 = length adj) by (unfold adj1; destruct ins; auto; apply length_upd).
    destruct (IH (Some v) adj1 L1 S1 HF F1) as [adj' [E [L' N']]].
    { intros u s' Hu Hin. unfold adj1 in Hu. apply (HA u s'); [|right; auto]. destruct ins; auto.
      rewrite nth_error_upd_neq in Hu; auto. intros ->. auto. }
    exists adj'. split; auto. split; auto. intros u. rewrite N'. unfold adj1.
    destruct (Nat.eq_dec u v) as [->|Ne].
    + rewrite Es. assert (mem v r = false) as -> by (apply mem_false; auto).
      assert (mem v (v :: r) = true) as -> by (apply mem_In; left; auto). rewrite andb_false_r, andb_true_r.
      destruct ins; [rewrite nth_error_upd_eq by auto; auto|rewrite Es; auto].
    + assert (mem u (v :: r) = mem u r) as ->.
      { unfold mem. cbn. apply Nat.eqb_neq in Ne. rewrite Ne. auto. }
      destruct ins; [rewrite nth_error_upd_neq by auto|]; auto.
Qed.

(** The loop throws exactly when the sequence is not strictly increasing or leaves the range. *)
Lemma addFactor_loop_thrown : forall nv fi ins vis prev adj adj' b,
  addFactor_loop nv fi ins prev vis adj = Ret (adj', b) ->
  (b = false <-> StronglySorted lt vis /\ Forall (fun v => v < nv) vis /\
    (match prev, vis with Some p, v :: _ => p < v | _, _ => True end)).
Proof.
  intros nv fi ins vis. induction vis as [|v r IH]; intros prev adj adj' b H.
  - cbn in H. injection H as <- <-. split; auto. intros _. split; [constructor|]. split; auto. destruct prev; auto.
  - cbn [addFactor_loop] in H.
    destruct (match prev with None => false | Some p => negb (p <? v) end) eqn:E1.
    + injection H as <- <-. split; [discriminate|]. intros [_ [_ H]].
      destruct prev as [p|]; [|discriminate]. apply Nat.ltb_lt in H. rewrite H in E1. discriminate.
    + destruct (v <? nv) eqn:E2; cbn [negb] in H.
      * apply bind_inv in H. destruct H as [adj1 [_ H]]. apply IH in H. rewrite H. apply Nat.ltb_lt in E2. clear H IH. split.
        -- intros [S1 [F1 P1]]. split; [|split].
           ++ constructor; auto. destruct r as [|u r]; auto.
              inversion S1 as [|? ? S2 F2]. subst. constructor; auto. eapply Forall_impl; [|exact F2]. cbn. intros. lia.
           ++ constructor; auto.
           ++ destruct prev as [p|]; auto. destruct (p <? v) eqn:E3; [apply Nat.ltb_lt; auto|discriminate].
        -- intros [S1 [F1 P1]]. inversion S1 as [|? ? S2 F2]. subst. apply Forall_cons_iff in F1. destruct F1.
           split; auto. split; auto. destruct r; auto. apply Forall_cons_iff in F2. destruct F2. auto.
      * injection H as <- <-. split; [discriminate|]. intros [_ [H _]].
        apply Forall_cons_iff in H. destruct H as [H _]. apply Nat.ltb_ge in E2. lia.
Qed.

Lemma addFactor_loop_total : forall nv fi ins vis prev adj,
  length adj = nv -> (forall v s, nth_error adj v = Some s -> StronglySorted lt s /\ Forall (fun x => x <= fi) s) ->
  exists adj' b, addFactor_loop nv fi ins prev vis adj = Ret (adj', b).
Proof.
  intros nv fi ins vis. induction vis as [|v r IH]; intros prev adj Hl HA.
  - cbn. eauto.
  - cbn [addFactor_loop].
    destruct (match prev with None => false | Some p => negb (p <? v) end); eauto.
    destruct (Nat.ltb_spec v nv); cbn [negb]; eauto.
    destruct ins; [|cbn [bind]; auto].
    subst nv. destruct (nth_error_lt _ adj v H) as [s Es]. destruct (HA v s Es) as [Ss Fs].
    unfold adj_insert. rewrite (rd_Ret _ _ _ _ Es). cbn [bind].
    destruct (insert_spec nat Nat.ltb nat_swo s fi (proj2 (ascending_lt s) Ss)) as [v' [i [b [E [A [I1 [_ [I2 [I3 _]]]]]]]]].
    rewrite E. cbn [bind]. rewrite wr_Ret by auto. cbn [bind]. apply IH; [apply length_upd|].
    intros u s' Hu. rewrite nth_error_upd in Hu by auto. destruct (Nat.eq_dec v u).
    + subst. injection Hu as <-.
      split; [apply ascending_lt; auto|]. destruct b.
      * destruct (I3 eq_refl) as [_ M]. apply Forall_forall. intros x Hx. apply M in Hx. destruct Hx; [lia|].
        rewrite Forall_forall in Fs. auto.
      * rewrite I2; auto.
    + eauto.
Qed.

Section GM.
Variable T : Type.
Variable OP : oper T.
Variable feqb : func T -> func T -> bool.

(** ** Reading through the pointers of a factor *)
Definition rep_fc (a : nat) (allvis : list nat) (fc : factor) (af : (nat * nat) * list nat) : Prop :=
  fc_gm fc = a /\ fc_vptr fc = a /\ fc_findex fc = fst (fst af) /\ fc_ftype fc = snd (fst af) /\
  fc_size fc = length (snd af) /\ firstn (fc_size fc) (skipn (fc_start fc) allvis) = snd af.

Lemma nth_error_firstn_lt : forall A (l : list A) n i, i < n -> nth_error (firstn n l) i = nth_error l i.
Proof. intros A l. induction l; intros [|n] [|i] H; cbn; auto; try lia. apply (IHl n i). lia. Qed.
Lemma nth_error_skipn_plus : forall A (l : list A) n i, nth_error (skipn n l) i = nth_error l (n + i).
Proof. intros A l. induction l; intros [|n] i; cbn; auto. destruct i; auto. apply IHl. Qed.

Lemma fc_variableIndex_rep : forall h a g fc af j v, deref T h a = Ret g -> rep_fc a (gm_vis g) fc af ->
  nth_error (snd af) j = Some v -> fc_variableIndex T h fc j = Ret v.
Proof.
  intros h a g fc af j v D [_ [R1 [_ [_ [R2 R3]]]]] E. unfold fc_variableIndex. rewrite R1, D. cbn [bind].
  apply rd_Ret. assert (j < length (snd af)) by (apply nth_error_Some; congruence).
  rewrite <- nth_error_skipn_plus, <- (nth_error_firstn_lt _ _ (fc_size fc)) by lia. rewrite R3. auto.
Qed.

Lemma dispatch_id : forall n t, t < n -> dispatch n t = Ret t.
Proof.
  intros [|[|[|n]]] t H; cbn [dispatch]; try lia.
  - f_equal. lia.
  - destruct t as [|[|t]]; auto; lia.
  - destruct (t <? 16); [f_equal; lia|]. destruct (Nat.ltb_spec t (S (S (S n)))); auto; lia.
Qed.

Lemma fc_function_rep : forall h a g fc af m f, deref T h a = Ret g -> rep_fc a (gm_vis g) fc af ->
  gm_funs g = am_funs m -> am_function T m (fst (fst af)) (snd (fst af)) = Some f -> fc_function T h fc = Ret f.
Proof.
  intros h a g fc af m f D [R0 [_ [R1 [R2 _]]]] EF E. unfold fc_function, fc_function_by.
  rewrite R0, D. cbn [bind]. rewrite EF. unfold am_function in E.
  destruct (nth_error (am_funs m) (snd (fst af))) as [fs|] eqn:E1; [|discriminate].
  rewrite R2, dispatch_id by (apply nth_error_Some; congruence). cbn [bind].
  rewrite (rd_Ret _ _ _ _ E1). cbn [bind]. rewrite R1. apply rd_Ret. auto.
Qed.

Lemma restrict_snoc : forall x l v, restrict x (l ++ [v]) = restrict x l ++ [nth v x 0].
Proof. intros. unfold restrict. apply map_app. Qed.

Lemma firstn_S_nth : forall A (l : list A) n v, nth_error l n = Some v -> firstn (S n) l = firstn n l ++ [v].
Proof. intros A l. induction l; intros [|n] v H; try discriminate; [injection H as ->; auto|]. cbn [firstn app]. f_equal. apply IHl. exact H. Qed.

Lemma firstn_upd_ge : forall A (l : list A) n i x, n <= i -> firstn n (upd l i x) = firstn n l.
Proof. intros A l. induction l; intros [|n] [|i] x H; cbn; auto; try lia. f_equal. apply IHl. lia. Qed.

Lemma fill_spec : forall h a g fc af x buf, deref T h a = Ret g -> rep_fc a (gm_vis g) fc af ->
  Forall (fun v => v < length x) (snd af) -> fc_size fc <= length buf ->
  exists buf', fill T h fc x buf = Ret buf' /\ length buf' = length buf /\ firstn (fc_size fc) buf' = restrict x (snd af).
Proof.
  intros h a g fc af x buf D R F L. unfold fill.
  assert (G : forall n, n <= fc_size fc -> exists buf',
     foldM (fun b i => v <- fc_variableIndex T h fc i ;; l <- rd x v ;; wr b i l) (seq 0 n) buf = Ret buf' /\
  length buf' = length buf /\ firstn n buf' = restrict x (firstn n (snd af))).
  { induction n as [|n IH]; intros Hn; [exists buf; auto|].
    destruct (IH ltac:(lia)) as [b' [E [L' F']]]. rewrite foldM_seq_S, E. cbn [bind]. rewrite Nat.add_0_l.
    assert (Hs : fc_size fc = length (snd af)) by apply R.
    destruct (nth_error_lt _ (snd af) n ltac:(lia)) as [v Ev].
    rewrite (fc_variableIndex_rep _ _ _ _ _ _ _ D R Ev). cbn [bind].
    assert (Hv : v < length x) by (rewrite Forall_forall in F; apply F; eapply nth_error_In; eauto).
    rewrite (rd_nth _ x v 0 Hv). cbn [bind]. rewrite wr_Ret by lia.
    eexists. split; [reflexivity|]. split; [rewrite length_upd; auto|].
    rewrite (firstn_S_nth _ _ n (nth v x 0)) by (apply nth_error_upd_eq; lia).
    rewrite firstn_upd_ge, F', (firstn_S_nth _ _ _ _ Ev), restrict_snoc by lia. auto. }
  destruct (G (fc_size fc) (le_n _)) as [b' [E [L' F']]]. exists b'. split; auto. split; auto.
  rewrite F'. f_equal. replace (fc_size fc) with (length (snd af)) by (symmetry; apply R). apply firstn_all.
Qed.

Definition wf_factor (m : amodel T) (af : (nat * nat) * list nat) : Prop :=
  usable T m (fst (fst af)) (snd (fst af)) (length (snd af)) /\ valid_vis T m (snd af).

Lemma eval_fold : forall h a g m x, deref T h a = Ret g -> gm_funs g = am_funs m ->
  length (am_labels m) <= length x ->
  forall fcs afs, Forall2 (rep_fc a (gm_vis g)) fcs afs -> Forall (wf_factor m) afs ->
  forall buf acc, 0 < length buf -> Forall (fun af => length (snd af) <= length buf) afs ->
  exists buf' v, foldM (eval_step T OP h x) fcs (buf, acc) = Ret (buf', v) /\
  combine_from T OP m x afs acc = Some v.
Proof.
  intros h a g m x D EF Hx fcs afs HR. induction HR as [|fc af fcs afs R HR IH]; intros W buf acc Hb HB.
  - exists buf, acc. auto.
  - apply Forall_cons_iff in W. destruct W as [[[f [Ef Hd]] [VS VR]] W].
    apply Forall_cons_iff in HB. destruct HB as [B1 HB].
    cbn [foldM combine_from]. destruct af as [[i t] vis]. cbn [fst snd] in *.
    unfold eval_step at 1. cbn [fst snd]. rewrite wr_Ret by auto. cbn [bind].
    assert (Hs : fc_size fc = length vis) by apply R.
    destruct (fill_spec h a g fc ((i, t), vis) x (upd buf 0 0) D R) as [b' [E [L' F']]].
    { cbn. eapply Forall_impl; [|exact VR]. cbn. intros. lia. }
    { rewrite length_upd. lia. }
    rewrite E. cbn [bind]. unfold fc_value.
    rewrite (fc_function_rep h a g fc ((i, t), vis) m f D R EF Ef). cbn [bind]. unfold call.
    rewrite length_upd in L'.
    destruct (Nat.leb_spec (f_dim f) (length b')); [|lia]. cbn [bind]. rewrite Ef.
    rewrite Hd, <- Hs, F'. cbn [snd].
    apply IH; auto; [lia|]. eapply Forall_impl; [|exact HB]. cbn. intros. lia.
Qed.

(** ** The representation invariant *)
Record rep (a : nat) (g : gm T) (m : amodel T) : Prop := {
  r_space : gm_space g = am_labels m;
  r_funs : gm_funs g = am_funs m;
  r_len : length (gm_adj g) = length (am_labels m);
  r_order : gm_order g = max_order T m;
  r_fcs : Forall2 (rep_fc a (gm_vis g)) (gm_factors g) (am_factors m);
  r_wf : Forall (wf_factor m) (am_factors m);
  r_adj : forall v s, nth_error (gm_adj g) v = Some s ->
            StronglySorted lt s /\ Forall (fun k => k < length (am_factors m)) s;
  r_final : am_final m = true -> forall v s, nth_error (gm_adj g) v = Some s -> s = adj_of T m v }.

Definition inv (h : heap T) (w : world T) : Prop :=
  length h = length w /\
  forall a, match nth_error h a, nth_error w a with
            | Some (Some g), Some (Some m) => rep a g m
            | Some None, Some None => True
            | None, None => True
            | _, _ => False end.

Lemma max_order_ge : forall m af, In af (am_factors m) -> length (snd af) <= max_order T m.
Proof.
  intros m af H. unfold max_order. pose proof (proj1 (list_max_le (map (fun fc : nat * nat * list nat => length (snd fc)) (am_factors m)) _) (le_n _)) as F.
  rewrite Forall_forall in F. apply F. apply in_map_iff. exists af. auto.
Qed.

Lemma evaluate_rep : forall h a g m x, deref T h a = Ret g -> rep a g m -> length (am_labels m) <= length x ->
  exists v, combine T OP m x = Some v /\ evaluate T OP h a x = Ret v.
Proof.
  intros h a g m x D R Hx. unfold evaluate. rewrite D. cbn [bind].
  destruct (eval_fold h a g m x D (r_funs _ _ _ R) Hx _ _ (r_fcs _ _ _ R) (r_wf _ _ _ R)
              (repeat 0 (S (factorOrder T g))) (o_neutral OP)) as [b [v [E C]]].
  - rewrite repeat_length. lia.
  - apply Forall_forall. intros af Hin. rewrite repeat_length. unfold factorOrder. rewrite (r_order _ _ _ R).
    pose proof (max_order_ge m af Hin). lia.
  - exists v. split; auto. rewrite E. auto.
Qed.

Lemma Forall2_nth_r : forall A B (P : A -> B -> Prop) l1 l2 k b, Forall2 P l1 l2 -> nth_error l2 k = Some b ->
  exists a, nth_error l1 k = Some a /\ P a b.
Proof.
  intros A B P l1 l2 k b H. revert k. induction H; intros [|k] E; try discriminate.
  - injection E as <-. exists x. auto.
  - apply (IHForall2 k). auto.
Qed.
Lemma Forall2_impl2 : forall A B (P Q : A -> B -> Prop), (forall a b, P a b -> Q a b) ->
  forall l1 l2, Forall2 P l1 l2 -> Forall2 Q l1 l2.
Proof. intros A B P Q H l1 l2 HF. induction HF; auto. Qed.
Lemma Forall2_len : forall A B (P : A -> B -> Prop) l1 l2, Forall2 P l1 l2 -> length l1 = length l2.
Proof. intros. induction H; cbn; auto. Qed.

Lemma presents_rep : forall h a g m, deref T h a = Ret g -> rep a g m -> presents T h a m.
Proof.
  intros h a g m D R. exists g. split; auto.
  assert (S1 := r_space _ _ _ R).
  split; [unfold numberOfVariables; rewrite S1; auto|].
  split; [intros v n E; unfold numberOfLabels; apply rd_Ret; rewrite S1; auto|].
  split; [apply (Forall2_len _ _ _ _ _ (r_fcs _ _ _ R))|].
  split; [apply (r_order _ _ _ R)|].
  intros k i t vis E.
  destruct (Forall2_nth_r _ _ _ _ _ _ _ (r_fcs _ _ _ R) E) as [fc [Efc Rfc]].
  assert (Hs : fc_size fc = length vis) by apply Rfc.
  assert (W : wf_factor m ((i, t), vis)).
  { pose proof (r_wf _ _ _ R) as F. rewrite Forall_forall in F. apply F. eapply nth_error_In; eauto. }
  destruct W as [[f [Ef Hd]] [VS VR]]. cbn [fst snd] in *.
  unfold numberOfVariablesOf, variableOfFactor. rewrite (rd_Ret _ _ _ _ Efc). cbn [bind].
  split; [unfold fc_numberOfVariables; rewrite Hs; auto|].
  split; [intros j v Ev; eapply fc_variableIndex_rep; eauto|].
  exists fc, f. split; auto. split; auto.
  assert (EF : fc_function T h fc = Ret f) by (eapply fc_function_rep; eauto; apply (r_funs _ _ _ R)).
  split; auto.
  assert (NL : forall j v n, nth_error vis j = Some v -> nth_error (am_labels m) v = Some n -> fc_numberOfLabels T h fc j = Ret n).
  { intros j v n Ev En. unfold fc_numberOfLabels. rewrite (fc_variableIndex_rep h a g fc ((i,t),vis) j v D Rfc Ev). cbn [bind].
    assert (fc_gm fc = a) as -> by apply Rfc. rewrite D. cbn [bind]. unfold numberOfLabels. apply rd_Ret. rewrite S1. auto. }
  split; auto. split.
  - unfold fc_sizeof. rewrite Hs.
    assert (NL' : forall j, j < length vis -> fc_numberOfLabels T h fc j = Ret (nth j (map (fun v => nth v (am_labels m) 0) vis) 0)).
    { intros j Hj. destruct (nth_error_lt _ vis j Hj) as [v Ev].
      assert (Hv : v < length (am_labels m)) by (rewrite Forall_forall in VR; apply VR; eapply nth_error_In; eauto).
      rewrite (NL j v (nth v (am_labels m) 0) Ev (nth_error_nth' _ _ Hv)). f_equal.
      symmetry. rewrite (nth_indep _ 0 (nth 0 (am_labels m) 0)) by (rewrite map_length; auto).
      rewrite (map_nth (fun v => nth v (am_labels m) 0) vis 0 j). rewrite (nth_error_nth _ _ 0 Ev). auto. }
    destruct vis as [|v0 vis]; [reflexivity|]. cbn [length Nat.eqb negb].
    rewrite (NL' 0) by (cbn; lia). cbn [bind]. replace (S (length vis) - 1) with (length vis) by lia.
    set (ls := map (fun v => nth v (am_labels m) 0) (v0 :: vis)) in *.
    assert (LL : length ls = S (length vis)) by (unfold ls; rewrite map_length; auto).
    assert (G : forall n acc s, s + n <= length ls -> foldM (fun val i0 => s0 <- fc_numberOfLabels T h fc i0 ;; Ret (val * s0)) (seq s n) acc
                  = Ret (acc * size_of (firstn n (skipn s ls)))).
    { induction n as [|n IH]; intros acc s Hn; [cbn [seq foldM firstn size_of fold_right]; rewrite Nat.mul_1_r; reflexivity|].
      change (seq s (S n)) with (s :: seq (S s) n). cbn [foldM]. rewrite NL' by (cbn [length]; lia). cbn [bind].
      rewrite IH by lia. destruct (skipn_split _ ls s ltac:(lia)) as [w Ew].
      assert (nth s ls 0 = w) as ->.
      { apply nth_error_nth. rewrite <- (Nat.add_0_r s), <- nth_error_skipn_plus, Ew. auto. }
      rewrite Ew. cbn [firstn size_of fold_right]. fold (size_of (firstn n (skipn (S s) ls))). f_equal. lia. }
    rewrite G by lia. f_equal. unfold ls. cbn [map nth skipn firstn].
    rewrite firstn_all2 by (rewrite map_length; auto). cbn. auto.
  - intros l Hl. unfold fc_value. rewrite EF. cbn [bind]. unfold call. rewrite Hd, Hl, Nat.leb_refl, <- Hl, firstn_all. auto.
Qed.

Lemma adjacency_rep : forall h a g m, deref T h a = Ret g -> rep a g m -> am_final m = true -> adjacency T h a m.
Proof.
  intros h a g m D R F. exists g. split; auto. intros v Hv. rewrite <- (r_len _ _ _ R) in Hv.
  destruct (nth_error_lt _ _ v Hv) as [s Es]. pose proof (r_final _ _ _ R F v s Es). subst s.
  unfold numberOfFactorsOf, factorOfVariable. rewrite (rd_Ret _ _ _ _ Es). cbn [bind]. split; auto.
  intros k f E. apply rd_Ret. auto.
Qed.

(** ** Every call preserves the invariant *)
Lemma lookup_live : forall w a m, live T w a m -> lookup T w a = Some m.
Proof. intros w a m H. unfold lookup. rewrite H. auto. Qed.
Lemma lookup_inv : forall w a m, lookup T w a = Some m -> live T w a m.
Proof. unfold lookup, live. intros w a m H. destruct (nth_error w a) as [[m'|]|]; congruence. Qed.

Lemma inv_live : forall h w a m, inv h w -> live T w a m ->
  exists g, deref T h a = Ret g /\ a < length h /\ rep a g m.
Proof.
  intros h w a m [L I] H. specialize (I a). rewrite H in I. unfold deref.
  destruct (nth_error h a) as [[g|]|] eqn:E; try contradiction.
  exists g. split; auto. split; auto. apply nth_error_Some. congruence.
Qed.

Lemma inv_put : forall h w a g m, inv h w -> a < length h -> rep a g m -> inv (store T h a g) (put T w a m).
Proof.
  intros h w a g m [L I] Ha R. unfold store, put. split; [rewrite !length_upd; auto|]. intros b.
  rewrite !nth_error_upd by lia. destruct (Nat.eq_dec a b); [subst; auto|apply I].
Qed.

Lemma inv_destroy : forall h w a, inv h w -> a < length h -> inv (upd h a None) (upd w a None).
Proof.
  intros h w a [L I] Ha. split; [rewrite !length_upd; auto|]. intros b.
  rewrite !nth_error_upd by lia. destruct (Nat.eq_dec a b); [subst; auto|apply I].
Qed.

Lemma nth_error_snoc : forall A (l : list A) x k,
  nth_error (l ++ [x]) k = if k <? length l then nth_error l k else if k =? length l then Some x else None.
Proof.
  intros A l x k. destruct (Nat.ltb_spec k (length l)); [apply nth_error_app1; auto|].
  rewrite nth_error_app2 by auto. destruct (Nat.eqb_spec k (length l)).
  - subst. rewrite Nat.sub_diag. auto.
  - destruct (k - length l) as [|[|j]] eqn:E; auto. lia.
Qed.

Lemma inv_app : forall h w g m, inv h w -> rep (length h) g m -> inv (h ++ [Some g]) (w ++ [Some m]).
Proof.
  intros h w g m [L I] R. split; [rewrite !app_length; cbn; lia|]. intros b.
  rewrite !nth_error_snoc, <- L. destruct (b <? length h); [apply I|].
  destruct (Nat.eqb_spec b (length h)); [subst|]; auto.
Qed.

Lemma repeat_nth : forall A (x : A) n k y, nth_error (repeat x n) k = Some y -> y = x.
Proof. intros. apply nth_error_In in H. apply repeat_spec in H. auto. Qed.

Lemma rep_new : forall a NT space, rep a (gm_new T NT space) (mkA space (repeat [] NT) [] true).
Proof.
  intros a NT space. constructor; cbn; auto.
  - apply repeat_length.
  - intros v s H. apply repeat_nth in H. subst. split; constructor.
  - intros _ v s H. apply repeat_nth in H. subst. auto.
Qed.

Lemma rep_fc_app : forall a vis l fc af, rep_fc a vis fc af -> rep_fc a (vis ++ l) fc af.
Proof.
  intros a vis l fc af [A [B [C [D [E F]]]]]. repeat (split; auto).
  rewrite skipn_app, firstn_app. rewrite F.
  assert (Hl : length (firstn (fc_size fc) (skipn (fc_start fc) vis)) = fc_size fc) by (rewrite F; auto).
  rewrite firstn_length, skipn_length in Hl.
  destruct (Nat.eq_dec (fc_size fc) 0) as [Z|Z].
  { replace (fc_size fc - length (skipn (fc_start fc) vis)) with 0 by lia. rewrite app_nil_r. auto. }
  replace (fc_size fc - length (skipn (fc_start fc) vis)) with 0 by (rewrite skipn_length; lia). rewrite app_nil_r. auto.
Qed.

Lemma wf_mono : forall m m' af, (forall i t f, am_function T m i t = Some f -> exists f', am_function T m' i t = Some f' /\ f_dim f' = f_dim f) ->
  length (am_labels m) <= length (am_labels m') -> wf_factor m af -> wf_factor m' af.
Proof.
  intros m m' af HF HL [[f [Ef Hd]] [S1 S2]]. split.
  - destruct (HF _ _ _ Ef) as [f' [E' D']]. exists f'. split; auto. congruence.
  - split; auto. eapply Forall_impl; [|exact S2]. cbn. intros. lia.
Qed.

Lemma adj_of_fresh : forall m v, Forall (wf_factor m) (am_factors m) -> length (am_labels m) <= v -> adj_of T m v = [].
Proof.
  intros m v W Hv. unfold adj_of.
  assert (G : forall l, filter (fun k => match nth_error (am_factors m) k with Some (_, vis) => existsb (Nat.eqb v) vis | None => false end) l = []).
  { induction l as [|k l IH]; auto. cbn [filter].
    destruct (nth_error (am_factors m) k) as [[it vis]|] eqn:E; auto.
    change (existsb (Nat.eqb v) vis) with (mem v vis).
    assert (mem v vis = false) as ->; auto. apply mem_false. intros Hin.
    rewrite Forall_forall in W. apply nth_error_In in E. apply W in E. destruct E as [_ [_ F]].
    cbn in F. rewrite Forall_forall in F. apply F in Hin. lia. }
  apply G.
Qed.

Lemma rep_addVariable : forall a g m n, rep a g m ->
  rep a (fst (gm_addVariable T g n)) (mkA (am_labels m ++ [n]) (am_funs m) (am_factors m) (am_final m)).
Proof.
  intros a g m n R. destruct R. constructor; cbn; auto.
  - rewrite r_space0. auto.
  - rewrite !app_length, r_len0. auto.
  - eapply Forall_impl; [|exact r_wf0]. intros af. apply wf_mono; cbn.
    + intros i t f E. exists f. auto.
    + rewrite app_length. lia.
  - intros v s H. rewrite nth_error_snoc in H. destruct (v <? length (gm_adj g)); [apply (r_adj0 v); auto|].
    destruct (v =? length (gm_adj g)); [|discriminate]. injection H as <-. split; constructor.
  - intros F v s H. rewrite nth_error_snoc in H. destruct (v <? length (gm_adj g)) eqn:E1; [apply r_final0; auto|].
    destruct (v =? length (gm_adj g)) eqn:E2; [|discriminate]. injection H as <-.
    symmetry. apply (adj_of_fresh m v r_wf0). apply Nat.eqb_eq in E2. lia.
Qed.

Lemma am_function_with : forall m t fs i t', t < length (am_funs m) ->
  am_function T (with_fun T m t fs) i t' = if Nat.eq_dec t t' then nth_error fs i else am_function T m i t'.
Proof.
  intros m t fs i t' H. unfold am_function, with_fun. cbn [am_funs]. rewrite nth_error_upd by auto.
  destruct (Nat.eq_dec t t'); auto.
Qed.

Lemma rep_with_fun : forall a g m t fs fs', rep a g m -> nth_error (am_funs m) t = Some fs ->
  (forall i f, nth_error fs i = Some f -> exists f', nth_error fs' i = Some f' /\ f_dim f' = f_dim f) ->
  rep a (set_funs T g t fs') (with_fun T m t fs').
Proof.
  intros a g m t fs fs' R E H. destruct R. constructor; cbn; auto.
  - rewrite r_funs0. auto.
  - eapply Forall_impl; [|exact r_wf0]. intros af. apply wf_mono; auto.
    intros i t' f Ef. assert (t < length (am_funs m)) by (apply nth_error_Some; congruence).
    rewrite am_function_with by auto. destruct (Nat.eq_dec t t').
    + subst. unfold am_function in Ef. rewrite E in Ef. auto.
    + exists f. auto.
Qed.

Lemma adj_of_snoc : forall m af fin v,
  adj_of T (mkA (am_labels m) (am_funs m) (am_factors m ++ [af]) fin) v =
  adj_of T m v ++ (if mem v (snd af) then [length (am_factors m)] else []).
Proof.
  intros m [it vis] fin v. unfold adj_of. cbn [am_factors snd]. rewrite app_length. cbn [length].
  rewrite Nat.add_1_r, seq_S, filter_app. f_equal.
  - apply filter_ext_in. intros k Hk. apply in_seq in Hk. rewrite nth_error_app1 by lia. auto.
  - cbn [filter]. rewrite Nat.add_0_l, nth_error_snoc, Nat.ltb_irrefl, Nat.eqb_refl.
    change (existsb (Nat.eqb v) vis) with (mem v vis). destruct (mem v vis); auto.
Qed.

Lemma rep_addFactor : forall a g m ins i t vis, rep a g m -> usable T m i t (length vis) -> valid_vis T m vis ->
  exists g', gm_addFactor T a ins g (i, t) vis = Ret (g', false) /\
    rep a g' (mkA (am_labels m) (am_funs m) (am_factors m ++ [((i, t), vis)]) (if ins then am_final m else false)).
Proof.
  intros a g m ins i t vis R U [VS VR]. unfold gm_addFactor.
  assert (LF : length (gm_factors g) = length (am_factors m)) by apply (Forall2_len _ _ _ _ _ (r_fcs _ _ _ R)).
  destruct (addFactor_loop_valid (numberOfVariables T g) (length (gm_factors g)) ins vis None (gm_adj g)) as [adj [E [L N]]]; auto.
  { unfold numberOfVariables. rewrite (r_space _ _ _ R). apply (r_len _ _ _ R). }
  { unfold numberOfVariables. rewrite (r_space _ _ _ R). auto. }
  { intros v s Hv _. rewrite LF. apply (r_adj _ _ _ R v s Hv). }
  rewrite E. cbn [bind]. eexists. split; [reflexivity|]. destruct R. constructor; cbn [gm_space gm_funs gm_adj gm_factors gm_vis gm_order am_labels am_funs am_factors am_final]; auto.
  - rewrite L. unfold numberOfVariables. rewrite r_space0. auto.
  - rewrite r_order0. unfold max_order. cbn [am_factors]. rewrite map_app, list_max_app. cbn. lia.
  - apply Forall2_app.
    + eapply Forall2_impl2; [|exact r_fcs0]. intros. apply rep_fc_app. auto.
    + constructor; [|constructor]. repeat split; cbn; auto.
      rewrite skipn_app, skipn_all, Nat.sub_diag. cbn. apply firstn_all.
  - apply Forall_app. split.
    + eapply Forall_impl; [|exact r_wf0]. intros af. apply wf_mono; cbn; auto. intros i' t' f Ef. exists f. auto.
    + constructor; [|constructor]. split; [exact U|split; auto].
  - intros v s H. rewrite N in H. destruct (nth_error (gm_adj g) v) as [s0|] eqn:Es; [|discriminate].
    injection H as <-. destruct (r_adj0 v s0 Es) as [SS SF]. rewrite app_length. cbn.
    destruct (ins && mem v vis).
    + split; [apply sorted_snoc; auto; rewrite LF; auto|]. apply Forall_app. split.
      * eapply Forall_impl; [|exact SF]. cbn. intros. lia.
      * repeat constructor. lia.
    + split; auto. eapply Forall_impl; [|exact SF]. cbn. intros. lia.
  - intros F v s H. destruct ins; [|discriminate]. rewrite N in H.
    destruct (nth_error (gm_adj g) v) as [s0|] eqn:Es; [|discriminate]. injection H as <-.
    rewrite adj_of_snoc. cbn [snd andb]. rewrite (r_final0 F v s0 Es), LF. destruct (mem v vis); auto.
    rewrite app_nil_r. auto.
Qed.

Lemma set_insert_fresh : forall s k, ~ In k s -> set_insert s k = s ++ [k].
Proof.
  intros s k H. unfold set_insert. change (existsb (Nat.eqb k) s) with (mem k s).
  assert (mem k s = false) as -> by (apply mem_false; auto). auto.
Qed.

Lemma finalize_inner : forall h a g fc af fi adj, deref T h a = Ret g -> rep_fc a (gm_vis g) fc af ->
  Forall (fun v => v < length adj) (snd af) -> NoDup (snd af) ->
  (forall v s, nth_error adj v = Some s -> ~ In fi s) ->
  exists adj', foldM (fun adj k => vi <- fc_variableIndex T h fc k ;; s <- rd adj vi ;; wr adj vi (set_insert s fi)) (seq 0 (fc_size fc)) adj = Ret adj' /\
    length adj' = length adj /\
    forall v, nth_error adj' v = match nth_error adj v with Some s => Some (if mem v (snd af) then s ++ [fi] else s) | None => None end.
Proof.
  intros h a g fc af fi adj D R HF HN HA.
  assert (Hs : fc_size fc = length (snd af)) by apply R.
  assert (G : forall n, n <= fc_size fc -> exists adj', 
    foldM (fun adj k => vi <- fc_variableIndex T h fc k ;; s <- rd adj vi ;; wr adj vi (set_insert s fi)) (seq 0 n) adj = Ret adj' /\
    length adj' = length adj /\
    forall v, nth_error adj' v = match nth_error adj v with Some s => Some (if mem v (firstn n (snd af)) then s ++ [fi] else s) | None => None end).
  { induction n as [|n IH]; intros Hn.
    - exists adj. split; auto. split; auto. intros v. cbn. destruct (nth_error adj v); auto.
    - destruct (IH ltac:(lia)) as [adj' [E [L N]]]. rewrite foldM_seq_S, E. cbn [bind]. rewrite Nat.add_0_l.
      destruct (nth_error_lt _ (snd af) n ltac:(lia)) as [v Ev].
      rewrite (fc_variableIndex_rep h a g fc af n v D R Ev). cbn [bind].
      assert (Hv : v < length adj) by (rewrite Forall_forall in HF; apply HF; eapply nth_error_In; eauto).
      destruct (nth_error_lt _ adj v Hv) as [s Es].
      assert (NI : mem v (firstn n (snd af)) = false).
      { apply mem_false. intros Hin. apply In_nth_error in Hin. destruct Hin as [k Hk].
        assert (k < n) by (rewrite <- (firstn_length_le (snd af) (n:=n)) by lia; apply nth_error_Some; congruence).
        rewrite nth_error_firstn_lt in Hk by lia.
        assert (k = n); [|lia]. apply (proj1 (NoDup_nth_error (snd af)) HN); [lia|congruence]. }
      pose proof (N v) as Nv. rewrite Es, NI in Nv. rewrite (rd_Ret _ _ _ _ Nv). cbn [bind].
      rewrite wr_Ret by lia. eexists. split; [reflexivity|]. rewrite length_upd. split; auto.
      intros u. rewrite nth_error_upd by lia. rewrite (firstn_S_nth _ _ _ _ Ev).
      destruct (Nat.eq_dec v u) as [<-|Ne].
      + rewrite Es, set_insert_fresh by (apply (HA v); auto).
        assert (mem v (firstn n (snd af) ++ [v]) = true) as -> by (apply mem_In, in_or_app; right; left; auto). auto.
      + rewrite N. assert (mem u (firstn n (snd af) ++ [v]) = mem u (firstn n (snd af))) as ->; auto.
        unfold mem. rewrite existsb_app. cbn. apply not_eq_sym, Nat.eqb_neq in Ne. rewrite Ne, !orb_false_r. auto. }
  destruct (G (fc_size fc) (le_n _)) as [adj' [E [L N]]]. exists adj'. split; auto. split; auto.
  intros v. rewrite N, Hs, firstn_all. auto.
Qed.

Lemma foldM_ext : forall A S (f g : S -> A -> outcome S) l s, (forall s a, In a l -> f s a = g s a) -> foldM f l s = foldM g l s.
Proof.
  intros A S f g l. induction l as [|a l IH]; intros s H; cbn; auto. rewrite H by (left; auto).
  destruct (g s a); cbn; auto. apply IH. intros. apply H. right. auto.
Qed.

Lemma copy_loop : forall A (adj cur : list A), length adj = length cur ->
  foldM (fun cur vi => s <- rd adj vi ;; wr cur vi s) (seq 0 (length adj)) cur = Ret adj.
Proof.
  intros A adj cur L.
  assert (G : forall n, n <= length adj -> foldM (fun cur vi => s <- rd adj vi ;; wr cur vi s) (seq 0 n) cur = Ret (firstn n adj ++ skipn n cur)).
  { induction n as [|n IH]; intros Hn; auto. rewrite foldM_seq_S, IH by lia. cbn [bind]. rewrite Nat.add_0_l.
    destruct (nth_error_lt _ adj n Hn) as [x Ex]. rewrite (rd_Ret _ _ _ _ Ex). cbn [bind].
    destruct (skipn_split _ cur n ltac:(lia)) as [y Ey]. rewrite Ey, wr_app_mid by (rewrite firstn_length; lia).
    rewrite (firstn_S_nth _ _ _ _ Ex), <- app_assoc. auto. }
  rewrite (G _ (le_n _)), firstn_all, L, skipn_all, app_nil_r. auto.
Qed.

Lemma rep_finalize : forall h a g m, deref T h a = Ret g -> rep a g m ->
  exists g', gm_finalize T h g = Ret g' /\ rep a g' (mkA (am_labels m) (am_funs m) (am_factors m) true).
Proof.
  intros h a g m D R. unfold gm_finalize.
  assert (LF : numberOfFactors T g = length (am_factors m)) by apply (Forall2_len _ _ _ _ _ (r_fcs _ _ _ R)).
  assert (LV : numberOfVariables T g = length (am_labels m)) by (unfold numberOfVariables; rewrite (r_space _ _ _ R); auto).
  rewrite LF, LV.
  set (step := fun adj fi => fc <- rd (gm_factors g) fi ;; foldM (fun adj k => vi <- fc_variableIndex T h fc k ;; s <- rd adj vi ;; wr adj vi (set_insert s fi)) (seq 0 (fc_size fc)) adj).
  set (am n := mkA (am_labels m) (am_funs m) (firstn n (am_factors m)) true).
  assert (G : forall n, n <= length (am_factors m) -> exists adj, foldM step (seq 0 n) (repeat [] (length (am_labels m))) = Ret adj /\
     length adj = length (am_labels m) /\ forall v, v < length (am_labels m) -> nth_error adj v = Some (adj_of T (am n) v)).
  { induction n as [|n IH]; intros Hn.
    - eexists. split; [reflexivity|]. rewrite repeat_length. split; auto. intros v Hv.
      rewrite nth_error_repeat by auto. auto.
    - destruct (IH ltac:(lia)) as [adj [E [L N]]]. rewrite foldM_seq_S, E. cbn [bind]. rewrite Nat.add_0_l.
      destruct (nth_error_lt _ (am_factors m) n Hn) as [af Eaf].
      destruct (Forall2_nth_r _ _ _ _ _ _ _ (r_fcs _ _ _ R) Eaf) as [fc [Efc Rfc]].
      unfold step at 1. rewrite (rd_Ret _ _ _ _ Efc). cbn [bind].
      assert (W : wf_factor m af) by (pose proof (r_wf _ _ _ R) as F; rewrite Forall_forall in F; apply F; eapply nth_error_In; eauto).
      destruct W as [_ [VS VR]].
      destruct (finalize_inner h a g fc af n adj D Rfc) as [adj' [E' [L' N']]].
      { rewrite L. auto. }
      { apply sorted_NoDup. auto. }
      { intros v s Es. destruct (le_lt_dec (length (am_labels m)) v) as [Hv|Hv].
        - assert (nth_error adj v = None) by (apply nth_error_None; lia). congruence.
        - rewrite (N v Hv) in Es. injection Es as <-. unfold adj_of. rewrite filter_In, in_seq.
          unfold am. cbn [am_factors]. rewrite firstn_length_le by lia. lia. }
      exists adj'. split; [exact E'|]. split; [lia|]. intros v Hv. rewrite N', (N v Hv). f_equal.
      unfold am at 3. rewrite (firstn_S_nth _ _ _ _ Eaf).
      change (mkA (am_labels m) (am_funs m) (firstn n (am_factors m) ++ [af]) true) with
             (mkA (am_labels (am n)) (am_funs (am n)) (am_factors (am n) ++ [af]) true).
      rewrite adj_of_snoc. cbn [am am_factors]. rewrite firstn_length_le by lia.
      destruct (mem v (snd af)); auto. rewrite app_nil_r. auto. }
  destruct (G _ (le_n _)) as [adj [E [L N]]]. rewrite E. cbn [bind].
  rewrite <- L, copy_loop by (rewrite L; symmetry; apply (r_len _ _ _ R)). cbn [bind].
  eexists. split; [reflexivity|].
  assert (N2 : forall v s, nth_error adj v = Some s -> s = adj_of T m v).
  { intros v s Es. assert (v < length adj) by (apply nth_error_Some; congruence).
    rewrite N in Es by lia. injection Es as <-. unfold adj_of, am. cbn [am_factors]. rewrite firstn_all. auto. }
  destruct R. constructor; cbn [gm_space gm_funs gm_adj gm_factors gm_vis gm_order am_labels am_funs am_factors am_final]; auto.
  intros v s Es. apply N2 in Es. subst s. unfold adj_of. split.
  - apply ascending_lt. clear. unfold ascending. generalize (fun k => match nth_error (am_factors m) k with Some (_, vis) => existsb (Nat.eqb v) vis | None => false end).
    intros p. generalize (length (am_factors m)) at 1 as n. generalize 0.
    intros s n. revert s. induction n as [|n IH]; intros s; [constructor|].
    change (seq s (S n)) with (s :: seq (S s) n). cbn [filter]. destruct (p s); auto. constructor; auto.
    apply Forall_forall. intros x Hx. apply filter_In in Hx. destruct Hx as [Hx _]. apply in_seq in Hx. apply Nat.ltb_lt. lia.
  - apply Forall_forall. intros x Hx. apply filter_In in Hx. destruct Hx as [Hx _]. apply in_seq in Hx. lia.
Qed.

Lemma rep_copy : forall a b g m, rep b g m -> rep a (gm_copy T a g) m.
Proof.
  intros a b g m R. destruct R. constructor; cbn; auto.
  clear - r_fcs0. induction r_fcs0 as [|fc af fcs afs H HF IH]; cbn; constructor; auto.
  destruct H as [_ [_ H]]. split; auto.
Qed.


(** ** Assignment across function type lists *)
Lemma copyFunctions_spec : forall tmap src dst, length tmap = length src ->
  (forall s k, nth_error tmap s = Some (Some k) -> k < length dst) ->
  (forall s, nth_error tmap s = Some None -> nth_error src s = Some []) ->
  copyFunctions T tmap src dst = Ret (merge_funs T tmap src dst, false).
Proof.
  induction tmap as [|m tm IH]; intros [|fs src] dst L HK HN; try discriminate; auto.
  cbn [copyFunctions merge_funs]. injection L as L. destruct m as [k|].
  - rewrite wr_Ret by (apply (HK 0); auto). cbn [bind]. apply IH; auto.
    + intros s k' E. rewrite length_upd. apply (HK (S s) k'). auto.
    + intros s E. apply (HN (S s)). auto.
  - assert (fs = []) as -> by (specialize (HN 0 eq_refl); change (Some fs = Some []) in HN; congruence). cbn [length Nat.eqb].
    apply IH; auto.
    + intros s k' E. apply (HK (S s) k'). auto.
    + intros s E. apply (HN (S s)). auto.
Qed.

Lemma merge_length : forall tmap src dst, length (merge_funs T tmap src dst) = length dst.
Proof.
  induction tmap as [|[k|] tm IH]; intros [|fs src] dst; auto; cbn [merge_funs]; rewrite IH; auto. apply length_upd.
Qed.

Lemma merge_other : forall tmap src dst k, (forall s, nth_error tmap s <> Some (Some k)) ->
  nth_error (merge_funs T tmap src dst) k = nth_error dst k.
Proof.
  induction tmap as [|[k'|] tm IH]; intros [|fs src] dst k H; auto; cbn [merge_funs].
  - rewrite IH by (intros s; apply (H (S s))). apply nth_error_upd_neq. intros ->. apply (H 0). auto.
  - apply IH. intros s. apply (H (S s)).
Qed.

Lemma merge_nth : forall tmap src dst s k, length tmap = length src ->
  (forall s k, nth_error tmap s = Some (Some k) -> k < length dst) ->
  (forall s s' k, nth_error tmap s = Some (Some k) -> nth_error tmap s' = Some (Some k) -> s = s') ->
  nth_error tmap s = Some (Some k) -> nth_error (merge_funs T tmap src dst) k = nth_error src s.
Proof.
  induction tmap as [|m tm IH]; intros [|fs src] dst s k L HK HI E; try discriminate.
  - destruct s; discriminate.
  - injection L as L. destruct s as [|s].
    + change (Some m = Some (Some k)) in E. injection E as ->. cbn [merge_funs]. rewrite merge_other.
      * rewrite nth_error_upd_eq; auto. apply (HK 0). auto.
      * intros s E. pose proof (HI 0 (S s) k eq_refl E). lia.
    + assert (HI' : forall s s' k, nth_error tm s = Some (Some k) -> nth_error tm s' = Some (Some k) -> s = s').
      { intros s1 s2 k' E1 E2. pose proof (HI (S s1) (S s2) k' E1 E2). lia. }
      change (nth_error (fs :: src) (S s)) with (nth_error src s). change (nth_error tm s = Some (Some k)) in E.
      destruct m as [k'|]; cbn [merge_funs]; apply IH; auto; intros s' k0 E'; rewrite ?length_upd; apply (HK (S s') k0); auto.
Qed.

Lemma rep_crossAssign : forall a b tmap g g' m m', rep a g m -> rep b g' m' ->
  length tmap = length (am_funs m') ->
  (forall s k, nth_error tmap s = Some (Some k) -> k < length (am_funs m)) ->
  (forall s s' k, nth_error tmap s = Some (Some k) -> nth_error tmap s' = Some (Some k) -> s = s') ->
  (forall s, nth_error tmap s = Some None -> nth_error (am_funs m') s = Some []) ->
  exists r, gm_crossAssign T a tmap g' g = Ret (r, false) /\
    rep a r (mkA (am_labels m') (merge_funs T tmap (am_funs m') (am_funs m)) (map (rename_type tmap) (am_factors m')) (am_final m')).
Proof.
  intros a b tmap g g' m m' R R' L HK HI HN. unfold gm_crossAssign.
  rewrite (r_funs _ _ _ R), (r_funs _ _ _ R').
  rewrite copyFunctions_spec by auto. cbn [bind].
  set (M := mkA (am_labels m') (merge_funs T tmap (am_funs m') (am_funs m)) (map (rename_type tmap) (am_factors m')) (am_final m')).
  assert (TM : forall i t f, am_function T m' i t = Some f -> exists k, nth_error tmap t = Some (Some k) /\ am_function T M i k = Some f).
  { intros i t f Ef. unfold am_function in Ef. destruct (nth_error (am_funs m') t) as [fs|] eqn:E1; [|discriminate].
    assert (t < length tmap) by (rewrite L; apply nth_error_Some; congruence).
    destruct (nth_error_lt _ tmap t H) as [[k|] Et].
    - exists k. split; auto. unfold am_function, M. cbn [am_funs]. rewrite (merge_nth tmap _ _ t k) by auto. rewrite E1. auto.
    - rewrite (HN t Et) in E1. injection E1 as <-. destruct i; discriminate. }
  assert (G : forall fcs afs, Forall2 (rep_fc b (gm_vis g')) fcs afs -> Forall (wf_factor m') afs ->
     exists fcs', retype_all a tmap fcs = Ret (Some fcs') /\ Forall2 (rep_fc a (gm_vis g')) fcs' (map (rename_type tmap) afs) /\
       Forall (wf_factor M) (map (rename_type tmap) afs)).
  { intros fcs afs HF. induction HF as [|fc af fcs afs Hf HF IH]; intros W.
    - exists []. split; [reflexivity|]. split; constructor.
    - apply Forall_cons_iff in W. destruct W as [[[f [Ef Hd]] VV] W]. destruct (IH W) as [fcs' [E' [F' W']]].
      destruct af as [[i t] vis]. cbn [fst snd] in *.
      destruct (TM i t f Ef) as [k [Ek Ef']]. destruct Hf as [A1 [A2 [A3 [A4 [A5 A6]]]]]. cbn [fst snd] in *.
      cbn [retype_all]. unfold retype. rewrite A4, (rd_Ret _ _ _ _ Ek). cbn [bind]. rewrite E'. cbn [bind].
      eexists. split; [reflexivity|]. cbn [map rename_type]. rewrite Ek. split; constructor; auto.
      + repeat split; cbn; auto.
      + split; cbn; [exists f; auto|exact VV]. }
  destruct (G _ _ (r_fcs _ _ _ R') (r_wf _ _ _ R')) as [fcs' [E' [F' W']]]. rewrite E'. cbn [bind].
  eexists. split; [reflexivity|]. destruct R'.
  assert (AJ : forall v, adj_of T M v = adj_of T m' v).
  { intros v. unfold adj_of, M. cbn [am_factors]. rewrite map_length. apply filter_ext. intros k.
    rewrite nth_error_map. destruct (nth_error (am_factors m') k) as [[[i t] vis]|]; auto. }
  constructor; unfold M; cbn [gm_space gm_funs gm_adj gm_factors gm_vis gm_order am_labels am_funs am_factors am_final]; auto.
  - rewrite r_order0. unfold max_order. cbn [am_factors]. rewrite map_map. f_equal. apply map_ext. intros [[i t] vis]. auto.
  - rewrite map_length. auto.
  - intros F v s Es. fold M. rewrite AJ. auto.
Qed.

(** ** Simulation *)
Lemma find_equal_spec : forall fs f i, find_equal T feqb fs f i = option_map (fun k => i + k) (first_equal T feqb fs f).
Proof.
  induction fs as [|g r IH]; intros f i; auto. cbn [find_equal first_equal]. destruct (feqb f g); cbn; [f_equal; lia|].
  rewrite IH. destruct (first_equal T feqb r f); cbn; auto.
Qed.

Lemma first_equal_lt : forall fs f i, first_equal T feqb fs f = Some i -> exists g, nth_error fs i = Some g /\ feqb f g = true.
Proof.
  induction fs as [|g r IH]; intros f i H; [discriminate|]. cbn in H. destruct (feqb f g) eqn:E.
  - injection H as <-. exists g. auto.
  - destruct (first_equal T feqb r f) as [j|] eqn:E1; [|discriminate]. injection H as <-. apply (IH f j E1).
Qed.

Lemma legal_total : forall w o, legal T w o -> exists w' r, astep T feqb w o = Some (w', r).
Proof.
  intros w o H. destruct o; cbn in *;
  repeat match goal with
  | H : _ /\ _ |- _ => destruct H
  | H : exists _, _ |- _ => destruct H
  | H : live _ _ _ _ |- _ => apply lookup_live in H; rewrite H
  end; eauto.
  - destruct (nth_error_lt _ (am_funs x) t H0) as [fs E]. rewrite E. eauto.
  - destruct (nth_error_lt _ (am_funs x) t H0) as [fs E]. rewrite E. destruct (first_equal T feqb fs f); eauto.
  - destruct H0 as [f0 [E _]]. unfold am_function in E. destruct (nth_error (am_funs x) t); [eauto|discriminate].
Qed.

Lemma step_sim : forall h w o w' r, inv h w -> legal T w o -> astep T feqb w o = Some (w', r) ->
  exists h', gstep T feqb h o = Ret (h', r) /\ inv h' w'.
Proof.
  intros h w o w' r I HL HA.
  destruct o as [NT space|a n|a t f|a t f|a i t f|a i t vis|a i t vis|a|a|a b|a space|a b tmap|a]; cbn [legal] in HL; cbn [astep] in HA.
  - injection HA as <- <-. eexists. cbn [gstep]. rewrite <- (proj1 I). split; [reflexivity|]. apply inv_app; auto. apply rep_new.
  - destruct HL as [m HL]. rewrite (lookup_live _ _ _ HL) in HA. injection HA as <- <-.
    destruct (inv_live _ _ _ _ I HL) as [g [D [La R]]]. cbn [gstep]. rewrite D. cbn [bind].
    pose proof (rep_addVariable a g m n R) as R'. unfold gm_addVariable in *. cbn [fst] in R'.
    eexists. split; [|apply inv_put; [exact I|exact La|exact R']]. f_equal. f_equal. f_equal. rewrite app_length, (r_space _ _ _ R). cbn. lia.
  - destruct HL as [m [HL Ht]]. rewrite (lookup_live _ _ _ HL) in HA.
    destruct (inv_live _ _ _ _ I HL) as [g [D [La R]]]. cbn [gstep]. rewrite D. cbn [bind].
    destruct (nth_error (am_funs m) t) as [fs|] eqn:Ef; [|discriminate]. injection HA as <- <-.
    unfold gm_addFunction. rewrite (r_funs _ _ _ R), (rd_Ret _ _ _ _ Ef). cbn [bind].
    eexists. split; [reflexivity|]. apply inv_put; auto. eapply rep_with_fun; eauto.
    intros i f' E. exists f'. split; auto. rewrite nth_error_app1; auto. apply nth_error_Some. congruence.
  - destruct HL as [m [HL Ht]]. rewrite (lookup_live _ _ _ HL) in HA.
    destruct (inv_live _ _ _ _ I HL) as [g [D [La R]]]. cbn [gstep]. rewrite D. cbn [bind].
    destruct (nth_error (am_funs m) t) as [fs|] eqn:Ef; [|discriminate].
    unfold gm_addSharedFunction. rewrite (r_funs _ _ _ R), (rd_Ret _ _ _ _ Ef). cbn [bind].
    rewrite find_equal_spec. destruct (first_equal T feqb fs f) as [k|]; cbn [option_map]; injection HA as <- <-.
    + eexists. cbn [bind]. split; [reflexivity|]. unfold store. rewrite upd_same; auto.
      unfold deref in D. destruct (nth_error h a) as [[g'|]|]; congruence.
    + eexists. cbn [bind]. split; [reflexivity|]. apply inv_put; auto. eapply rep_with_fun; eauto.
      intros i f' E. exists f'. split; auto. rewrite nth_error_app1; auto. apply nth_error_Some. congruence.
  - destruct HL as [m [HL [f0 [Ef0 Hd]]]]. rewrite (lookup_live _ _ _ HL) in HA.
    destruct (inv_live _ _ _ _ I HL) as [g [D [La R]]]. cbn [gstep]. rewrite D. cbn [bind].
    unfold am_function in Ef0. destruct (nth_error (am_funs m) t) as [fs|] eqn:Ef; [|discriminate]. injection HA as <- <-.
    unfold gm_setFunction. rewrite (r_funs _ _ _ R), (rd_Ret _ _ _ _ Ef). cbn [bind].
    assert (i < length fs) by (apply nth_error_Some; congruence).
    rewrite wr_Ret by auto. cbn [bind].
    eexists. split; [reflexivity|]. apply inv_put; auto. eapply rep_with_fun; eauto.
    intros j f' E. rewrite nth_error_upd by auto. destruct (Nat.eq_dec i j); [|exists f'; auto].
    subst. exists f. split; auto. congruence.
  - destruct HL as [m [HL [U V]]]. rewrite (lookup_live _ _ _ HL) in HA. injection HA as <- <-.
    destruct (inv_live _ _ _ _ I HL) as [g [D [La R]]]. cbn [gstep]. rewrite D. cbn [bind].
    destruct (rep_addFactor a g m true i t vis R U V) as [g' [E R']]. rewrite E. cbn [bind].
    rewrite (Forall2_len _ _ _ _ _ (r_fcs _ _ _ R)). eexists. split; [reflexivity|]. apply inv_put; auto.
  - destruct HL as [m [HL [U V]]]. rewrite (lookup_live _ _ _ HL) in HA. injection HA as <- <-.
    destruct (inv_live _ _ _ _ I HL) as [g [D [La R]]]. cbn [gstep]. rewrite D. cbn [bind].
    destruct (rep_addFactor a g m false i t vis R U V) as [g' [E R']]. rewrite E. cbn [bind].
    rewrite (Forall2_len _ _ _ _ _ (r_fcs _ _ _ R)). eexists. split; [reflexivity|]. apply inv_put; auto.
  - destruct HL as [m HL]. rewrite (lookup_live _ _ _ HL) in HA. injection HA as <- <-.
    destruct (inv_live _ _ _ _ I HL) as [g [D [La R]]]. cbn [gstep]. rewrite D. cbn [bind].
    destruct (rep_finalize h a g m D R) as [g' [E R']]. rewrite E. cbn [bind].
    eexists. split; [reflexivity|]. apply inv_put; auto.
  - destruct HL as [m HL]. rewrite (lookup_live _ _ _ HL) in HA. injection HA as <- <-.
    destruct (inv_live _ _ _ _ I HL) as [g [D [La R]]]. cbn [gstep]. rewrite D. cbn [bind].
    rewrite <- (proj1 I). eexists. split; [reflexivity|]. apply inv_app; auto. eapply rep_copy; eauto.
  - destruct HL as [[m HL] [m' HL']]. rewrite (lookup_live _ _ _ HL), (lookup_live _ _ _ HL') in HA. injection HA as <- <-.
    destruct (inv_live _ _ _ _ I HL) as [g [D [La R]]]. destruct (inv_live _ _ _ _ I HL') as [g' [D' [La' R']]].
    cbn [gstep]. rewrite D, D'. cbn [bind]. destruct (Nat.eqb_spec a b).
    + subst b. eexists. split; [reflexivity|]. unfold put. rewrite upd_same; auto.
    + eexists. split; [reflexivity|]. apply inv_put; auto. eapply rep_copy; eauto.
  - destruct HL as [m HL]. rewrite (lookup_live _ _ _ HL) in HA. injection HA as <- <-.
    destruct (inv_live _ _ _ _ I HL) as [g [D [La R]]]. cbn [gstep]. rewrite D. cbn [bind].
    rewrite <- (r_funs _ _ _ R). eexists. split; [reflexivity|]. apply inv_put; auto.
    apply (rep_copy a a). apply rep_new.
  - destruct HL as [Ne [m [m' [HL [HL' [L [HK [HI HN]]]]]]]]. rewrite (lookup_live _ _ _ HL), (lookup_live _ _ _ HL') in HA. injection HA as <- <-.
    destruct (inv_live _ _ _ _ I HL) as [g [D [La R]]]. destruct (inv_live _ _ _ _ I HL') as [g' [D' [La' R']]].
    cbn [gstep]. rewrite D, D'. cbn [bind].
    destruct (rep_crossAssign a b tmap g g' m m' R R' L HK HI HN) as [r' [E RR]]. rewrite E. cbn [bind].
    eexists. split; [reflexivity|]. apply inv_put; auto.
  - destruct HL as [m HL]. rewrite (lookup_live _ _ _ HL) in HA. injection HA as <- <-.
    destruct (inv_live _ _ _ _ I HL) as [g [D [La R]]]. cbn [gstep]. rewrite D. cbn [bind].
    eexists. split; [reflexivity|]. apply inv_destroy; auto.
Qed.

Lemma inv_init : inv [] [].
Proof. split; auto. intros [|a]; exact Logic.I. Qed.

Lemma history_sim : forall ops w rs, history T feqb ops w rs -> exists h, grun T feqb ops = Ret (h, rs) /\ inv h w.
Proof.
  intros ops w rs H. induction H as [|ops w rs o w' r H IH HL HA].
  - exists []. split; auto. apply inv_init.
  - destruct IH as [h [E I]]. destruct (step_sim h w o w' r I HL HA) as [h' [E' I']].
    exists h'. split; auto. unfold grun in *. rewrite foldM_app, E. cbn. unfold grun_step. cbn [fst snd]. rewrite E'. auto.
Qed.

Lemma astep_frame : forall w o w' r c, astep T feqb w o = Some (w', r) -> targets T o <> Some c -> c < length w ->
  nth_error w' c = nth_error w c.
Proof.
  intros w o w' r c H Ht Hc. destruct o; cbn in *;
  repeat match type of H with
  | Some _ = Some _ => injection H as <- <-
  | None = Some _ => discriminate H
  | match ?x with _ => _ end = _ => destruct x eqn:?
  end;
  try (rewrite nth_error_app1 by auto; auto); unfold put; try (apply nth_error_upd_neq; congruence); auto.
Qed.
Lemma astep_length : forall w o w' r, astep T feqb w o = Some (w', r) -> length w <= length w'.
Proof.
  intros w o w' r H. destruct o; cbn in *;
  repeat match type of H with
  | Some _ = Some _ => injection H as <- <-
  | None = Some _ => discriminate H
  | match ?x with _ => _ end = _ => destruct x eqn:?
  end;
  unfold put; rewrite ?app_length, ?length_upd; cbn; lia.
Qed.

End GM.
