(** C11-C14, C33, C34: evaluation, adjacency, exception behaviour, copies and function look-up of
    GraphicalModel and Factor. *)
From Verif Require Import Base Values GmModel GmSpec GmProofs ShapeSpec IndexingProofs.
From Coq Require Import Sorted.

Section Props.
Variable T : Type.
Variable OP : oper T.
Variable feqb : func T -> func T -> bool.
Notation history := (history T feqb).
Notation grun := (grun T feqb).
Notation gstep := (gstep T feqb).

(** C11: after any legal history of construction, modification, copying, assignment and destruction
    of any number of models, every call has returned the prescribed response, every live model
    answers all queries as prescribed, and evaluate is the combination of all its factors. *)
Theorem C11_evaluate : forall ops w rs, history ops w rs ->
  exists h, grun ops = Ret (h, rs) /\
  forall a m, live T w a m -> presents T h a m /\
    forall x, length (am_labels m) <= length x ->
      exists v, combine T OP m x = Some v /\ evaluate T OP h a x = Ret v.
Proof.
  intros ops w rs H. destruct (history_sim T feqb ops w rs H) as [h [E I]]. exists h. split; auto.
  intros a m HL. destruct (inv_live T h w a m I HL) as [g [D [_ R]]]. split.
  - eapply presents_rep; eauto.
  - intros x Hx. eapply evaluate_rep; eauto.
Qed.

(** Legal calls have a prescribed effect, so that legal histories can always be continued. *)
Theorem C11_progress : forall ops w rs o, history ops w rs -> legal T w o ->
  exists w' r, history (ops ++ [o]) w' (rs ++ [r]).
Proof.
  intros ops w rs o H HL. destruct (legal_total T feqb w o HL) as [w' [r E]].
  exists w', r. eapply H_snoc; eauto.
Qed.

(** A client that adds one factor at a time, each with its own function added by addFunction or by
    addSharedFunction to the list of one of the types. *)
Definition add_item (a : nat) (h : heap T) (it : (bool * nat) * (func T * list nat)) : outcome (heap T) :=
  let '((share, t), (f, vis)) := it in
  ' (h1, r) <- gstep h (if share then GAddSharedFunction T a t f else GAddFunction T a t f) ;;
  match r with
  | GFid i t' => ' (h2, _) <- gstep h1 (GAddFactor T a i t' vis) ;; Ret h2
  | _ => Undef
  end.

(** What the client expects: its functions, combined in order. *)
Definition expected (x : list nat) (items : list ((bool * nat) * (func T * list nat))) : T :=
  fold_left (fun acc it => o_op OP (f_call (fst (snd it)) (restrict x (snd (snd it)))) acc) items (o_neutral OP).

Lemma combine_from_app : forall m x l1 l2 acc, combine_from T OP m x (l1 ++ l2) acc =
  match combine_from T OP m x l1 acc with Some v => combine_from T OP m x l2 v | None => None end.
Proof.
  intros m x l1. induction l1 as [|[[i t] vis] l1 IH]; intros l2 acc; auto. cbn.
  destruct (am_function T m i t); auto.
Qed.
Lemma combine_from_ext : forall m m' x afs acc v, (forall i t f, am_function T m i t = Some f -> am_function T m' i t = Some f) ->
  combine_from T OP m x afs acc = Some v -> combine_from T OP m' x afs acc = Some v.
Proof.
  intros m m' x afs. induction afs as [|[[i t] vis] afs IH]; intros acc v H E; auto. cbn in *.
  destruct (am_function T m i t) as [f|] eqn:Ef; [|discriminate]. rewrite (H _ _ _ Ef). auto.
Qed.

(** C11: evaluate does not depend on sharing nor on the function types, provided operator== of the
    functions identifies only functions with equal shape and equal values. *)
Theorem C11_sharing : forall NT space items x,
  (forall f g, feqb f g = true -> f_shape f = f_shape g /\ forall c, in_shape (f_shape f) c -> f_call f c = f_call g c) ->
  Forall (fun it => snd (fst it) < NT /\ StronglySorted lt (snd (snd it)) /\
                    Forall (fun v => v < length space) (snd (snd it)) /\
                    f_shape (fst (snd it)) = map (fun v => nth v space 0) (snd (snd it))) items ->
  Forall2 lt x space ->
  exists h, foldM (add_item 0) items [Some (gm_new T NT space)] = Ret h /\
    evaluate T OP h 0 x = Ret (expected x items).
Proof.
  intros NT space items x HE HI Hx.
  assert (G : exists h m, foldM (add_item 0) items [Some (gm_new T NT space)] = Ret h /\ inv T h [Some m] /\
     am_labels m = space /\ length (am_funs m) = NT /\ combine T OP m x = Some (expected x items)).
  { induction items as [|it items IH] using rev_ind.
    - exists [Some (gm_new T NT space)], (mkA space (repeat [] NT) [] true). split; auto. split.
      + split; auto. intros [|[|a]]; cbn; auto. apply rep_new.
      + cbn. rewrite repeat_length. auto.
    - apply Forall_app in HI. destruct HI as [HI1 HI2]. destruct (IH HI1) as [h [m [E [I [HL [HN HC]]]]]]. clear IH.
      apply Forall_cons_iff in HI2. destruct HI2 as [[Ht [Hs [Hv Hsh]]] _].
      rewrite foldM_app, E. cbn [bind foldM].
      destruct it as [[share t] [f vis]]. cbn [fst snd] in *.
      assert (HLv : live T [Some m] 0 m) by reflexivity.
      assert (Hdim : f_dim f = length vis) by (unfold f_dim; rewrite Hsh, map_length; auto).
      assert (Hin : in_shape (f_shape f) (restrict x vis)).
      { rewrite Hsh. unfold in_shape, restrict. clear - Hv Hx. induction vis as [|v vis IH]; cbn; constructor.
        - apply Forall_cons_iff in Hv. destruct Hv as [Hv _]. clear - Hv Hx. revert v Hv. induction Hx; intros [|v] Hv; cbn in *; try lia; auto. apply IHHx. lia.
        - apply IH. apply Forall_cons_iff in Hv. tauto. }
      (* first call *)
      assert (S1 : exists h1 m1 i f', gstep h (if share then GAddSharedFunction T 0 t f else GAddFunction T 0 t f) = Ret (h1, GFid i t) /\
         inv T h1 [Some m1] /\ am_labels m1 = space /\ length (am_funs m1) = NT /\ am_factors m1 = am_factors m /\
         am_function T m1 i t = Some f' /\ f_shape f' = f_shape f /\ f_call f' (restrict x vis) = f_call f (restrict x vis) /\
         combine T OP m1 x = Some (expected x items)).
      { rewrite <- HN in Ht. destruct (nth_error_lt _ (am_funs m) t Ht) as [fs Efs].
        assert (AM : forall i t' f0, am_function T m i t' = Some f0 -> am_function T (with_fun T m t (fs ++ [f])) i t' = Some f0).
        { intros i t' f0 E0. rewrite am_function_with by auto. destruct (Nat.eq_dec t t'); auto. subst.
          unfold am_function in E0. rewrite Efs in E0. rewrite nth_error_app1; auto. apply nth_error_Some. congruence. }
        assert (NW : am_function T (with_fun T m t (fs ++ [f])) (length fs) t = Some f).
        { rewrite am_function_with by auto. destruct (Nat.eq_dec t t); [|contradiction]. rewrite nth_error_app2, Nat.sub_diag by auto. auto. }
        assert (CW : combine T OP (with_fun T m t (fs ++ [f])) x = Some (expected x items)).
        { unfold combine. cbn [am_factors with_fun]. eapply combine_from_ext; [exact AM|]. exact HC. }
        destruct share.
        - destruct (first_equal T feqb fs f) as [k|] eqn:Ek.
          + destruct (step_sim T feqb h [Some m] (GAddSharedFunction T 0 t f) [Some m] (GFid k t) I) as [h1 [E1 I1]].
            { exists m. split; auto. }
            { cbn. unfold lookup. cbn. rewrite Efs, Ek. auto. }
            destruct (first_equal_lt T feqb fs f k Ek) as [f' [Ef' Eq]]. destruct (HE f f' Eq) as [HE1 HE2].
            exists h1, m, k, f'. split; auto. split; auto. split; auto. split; auto. split; auto.
            split; [unfold am_function; rewrite Efs; auto|]. split; auto. split; auto. symmetry. apply HE2. auto.
          + destruct (step_sim T feqb h [Some m] (GAddSharedFunction T 0 t f) [Some (with_fun T m t (fs ++ [f]))] (GFid (length fs) t) I) as [h1 [E1 I1]].
            { exists m. split; auto. }
            { cbn. unfold lookup. cbn. rewrite Efs, Ek. auto. }
            exists h1, (with_fun T m t (fs ++ [f])), (length fs), f. split; auto. split; auto. split; auto.
            split; [cbn; rewrite length_upd; auto|]. auto.
        - destruct (step_sim T feqb h [Some m] (GAddFunction T 0 t f) [Some (with_fun T m t (fs ++ [f]))] (GFid (length fs) t) I) as [h1 [E1 I1]].
          { exists m. split; auto. }
          { cbn. unfold lookup. cbn. rewrite Efs. auto. }
          exists h1, (with_fun T m t (fs ++ [f])), (length fs), f. split; auto. split; auto. split; auto.
          split; [cbn; rewrite length_upd; auto|]. auto. }
      destruct S1 as [h1 [m1 [i [f' [E1 [I1 [L1 [N1 [F1 [A1 [Sh1 [V1 C1]]]]]]]]]]]].
      assert (U : usable T m1 i t (length vis)) by (exists f'; split; auto; unfold f_dim in *; congruence).
      assert (V : valid_vis T m1 vis) by (split; auto; rewrite L1; auto).
      destruct (step_sim T feqb h1 [Some m1] (GAddFactor T 0 i t vis)
                 [Some (mkA (am_labels m1) (am_funs m1) (am_factors m1 ++ [((i, t), vis)]) (am_final m1))] (GIndex (length (am_factors m1))) I1) as [h2 [E2 I2]].
      { exists m1. split; [reflexivity|]. auto. }
      { reflexivity. }
      exists h2, (mkA (am_labels m1) (am_funs m1) (am_factors m1 ++ [((i, t), vis)]) (am_final m1)).
      split; [cbn [add_item]; rewrite E1; cbn [bind]; rewrite E2; reflexivity|]. split; auto. split; auto. split; auto.
      unfold combine. cbn [am_factors]. rewrite combine_from_app.
      rewrite (combine_from_ext m1 _ x (am_factors m1) (o_neutral OP) (expected x items)) by (auto; exact C1).
      cbn [combine_from]. change (am_function T (mkA (am_labels m1) (am_funs m1) (am_factors m1 ++ [(i, t, vis)]) (am_final m1)) i t) with (am_function T m1 i t).
      rewrite A1. unfold expected. rewrite fold_left_app. cbn. rewrite V1. auto. }
  destruct G as [h [m [E [I [HL [HN HC]]]]]]. exists h. split; auto.
  destruct (inv_live T h [Some m] 0 m I eq_refl) as [g [D [_ R]]].
  destruct (evaluate_rep T OP h 0 g m x D R) as [v [C V]].
  { rewrite HL. rewrite (Forall2_len _ _ _ _ _ Hx). auto. }
  rewrite V. f_equal. congruence.
Qed.

(** C12: the adjacency of every model that is up to date is exact. *)
Theorem C12_adjacency : forall ops w rs, history ops w rs ->
  exists h, grun ops = Ret (h, rs) /\
  forall a m, live T w a m -> am_final m = true -> adjacency T h a m.
Proof.
  intros ops w rs H. destruct (history_sim T feqb ops w rs H) as [h [E I]]. exists h. split; auto.
  intros a m HL F. destruct (inv_live T h w a m I HL) as [g [D [_ R]]]. eapply adjacency_rep; eauto.
Qed.

(** The list of factors the adjacency is compared with contains exactly the factors with the variable,
    each once, in increasing order. *)
Theorem C12_adj_of : forall (m : amodel T) v,
  (forall k, In k (adj_of T m v) <-> exists i vis, nth_error (am_factors m) k = Some (i, vis) /\ In v vis) /\
  StronglySorted lt (adj_of T m v).
Proof.
  intros m v. split.
  - intros k. unfold adj_of. rewrite filter_In, in_seq. split.
    + intros [_ H]. destruct (nth_error (am_factors m) k) as [[i vis]|]; [|discriminate].
      exists i, vis. split; auto. apply mem_In. exact H.
    + intros [i [vis [E H]]]. assert (k < length (am_factors m)) by (apply nth_error_Some; congruence).
      split; [lia|]. rewrite E. apply mem_In. auto.
  - unfold adj_of. generalize (fun k => match nth_error (am_factors m) k with Some (_, vis) => existsb (Nat.eqb v) vis | None => false end).
    intros p. generalize (length (am_factors m)) as n, 0 as s.
    induction n as [|n IH]; intros s; [constructor|].
    cbn [seq filter]. destruct (p s); auto. constructor; auto.
    apply Forall_forall. intros x Hx. apply filter_In in Hx. destruct Hx as [Hx _]. apply in_seq in Hx. lia.
Qed.

(** Adding factors with addFactor, or with addFactorNonFinalized followed by one finalize, gives
    models that answer every query in the same way. *)
Definition add_final (a : nat) (it : (nat * nat) * list nat) : gop T := GAddFactor T a (fst (fst it)) (snd (fst it)) (snd it).
Definition add_nonfinal (a : nat) (it : (nat * nat) * list nat) : gop T := GAddFactorNonFinalized T a (fst (fst it)) (snd (fst it)) (snd it).

Lemma add_run : forall ops w rs a m b fs (f : _ -> gop T), (f = add_final a /\ b = true) \/ (f = add_nonfinal a /\ b = false) ->
  history ops w rs -> live T w a m ->
  Forall (fun it => usable T m (fst (fst it)) (snd (fst it)) (length (snd it)) /\ valid_vis T m (snd it)) fs ->
  exists w' rs' m', history (ops ++ map f fs) w' rs' /\ live T w' a m' /\
    am_labels m' = am_labels m /\ am_funs m' = am_funs m /\ am_factors m' = am_factors m ++ fs /\
    (b = true -> am_final m' = am_final m).
Proof.
  intros ops w rs a m b fs f Hf H HL. revert ops w rs m H HL. induction fs as [|[[i t] vis] fs IH]; intros ops w rs m H HL HF.
  - exists w, rs, m. rewrite app_nil_r, app_nil_r. auto 6.
  - apply Forall_cons_iff in HF. destruct HF as [[U V] HF]. cbn [fst snd] in *.
    set (m1 := mkA (am_labels m) (am_funs m) (am_factors m ++ [((i, t), vis)]) (if b then am_final m else false)).
    assert (H1 : exists r, history (ops ++ [f ((i, t), vis)]) (put T w a m1) (rs ++ [r])).
    { exists (GIndex (length (am_factors m))). eapply H_snoc; [exact H| |].
      - destruct Hf as [[-> ->]|[-> ->]]; cbn; exists m; auto.
      - destruct Hf as [[-> ->]|[-> ->]]; cbn; rewrite (lookup_live T _ _ _ HL); reflexivity. }
    destruct H1 as [r H1].
    assert (HL1 : live T (put T w a m1) a m1).
    { unfold live, put. apply nth_error_upd_eq. apply nth_error_Some. unfold live in HL. congruence. }
    destruct (IH _ _ _ m1 H1 HL1) as [w' [rs' [m' [H' [HL' [A [B [C D]]]]]]]].
    { eapply Forall_impl; [|exact HF]. intros [[i' t'] vis'] HH. exact HH. }
    exists w', rs', m'. cbn [map]. rewrite <- app_assoc in H'. split; auto. split; auto. split; auto. split; auto.
    split; [rewrite C; cbn; rewrite <- app_assoc; auto|]. intros Hb. rewrite D by auto. cbn. rewrite Hb. auto.
Qed.

Theorem C12_finalize : forall ops w rs a m fs, history ops w rs -> live T w a m -> am_final m = true ->
  Forall (fun it => usable T m (fst (fst it)) (snd (fst it)) (length (snd it)) /\ valid_vis T m (snd it)) fs ->
  exists h1 h2 rs1 rs2,
    grun (ops ++ map (add_final a) fs) = Ret (h1, rs1) /\
    grun (ops ++ map (add_nonfinal a) fs ++ [GFinalize T a]) = Ret (h2, rs2) /\
    let m' := mkA (am_labels m) (am_funs m) (am_factors m ++ fs) true in
    presents T h1 a m' /\ adjacency T h1 a m' /\ presents T h2 a m' /\ adjacency T h2 a m' /\
    forall x, length (am_labels m) <= length x -> evaluate T OP h2 a x = evaluate T OP h1 a x.
Proof.
  intros ops w rs a m fs H HL HFin HF.
  destruct (add_run ops w rs a m true fs (add_final a) (or_introl (conj eq_refl eq_refl)) H HL HF) as [w1 [rs1 [m1 [H1 [L1 [A1 [B1 [C1 D1]]]]]]]].
  destruct (add_run ops w rs a m false fs (add_nonfinal a) (or_intror (conj eq_refl eq_refl)) H HL HF) as [w2 [rs2 [m2 [H2 [L2 [A2 [B2 [C2 _]]]]]]]].
  set (m' := mkA (am_labels m) (am_funs m) (am_factors m ++ fs) true).
  assert (m1 = m') as ->.
  { destruct m1. cbn in *. unfold m'. f_equal; auto. rewrite D1; auto. }
  assert (H3 : history ((ops ++ map (add_nonfinal a) fs) ++ [GFinalize T a]) (put T w2 a m') (rs2 ++ [GDone])).
  { eapply H_snoc; [exact H2| |].
    - exists m2. auto.
    - cbn. rewrite (lookup_live T _ _ _ L2). unfold m'. rewrite A2, B2, C2. auto. }
  rewrite <- app_assoc in H3.
  assert (L3 : live T (put T w2 a m') a m').
  { unfold live, put. apply nth_error_upd_eq. apply nth_error_Some. unfold live in L2. congruence. }
  destruct (history_sim T feqb _ _ _ H1) as [h1 [E1 I1]]. destruct (history_sim T feqb _ _ _ H3) as [h2 [E2 I2]].
  destruct (inv_live T _ _ _ _ I1 L1) as [g1 [G1 [_ R1]]]. destruct (inv_live T _ _ _ _ I2 L3) as [g2 [G2 [_ R2]]].
  exists h1, h2, rs1, (rs2 ++ [GDone]). split; auto. split; auto. cbv zeta.
  split; [eapply presents_rep; eauto|]. split; [eapply adjacency_rep; eauto|].
  split; [eapply presents_rep; eauto|]. split; [eapply adjacency_rep; eauto|].
  intros x Hx. destruct (evaluate_rep T OP h1 a g1 m' x G1 R1 Hx) as [v1 [V1 ->]].
  destruct (evaluate_rep T OP h2 a g2 m' x G2 R2 Hx) as [v2 [V2 ->]]. f_equal. congruence.
Qed.

(** C13: addFactor throws exactly when the sequence of variables is not strictly increasing or
    contains a variable that does not exist; isValidIndexSequence decides the same condition. *)
Lemma isValid_spec : forall n l prev, isValid_loop n prev l = true <->
  StronglySorted lt l /\ Forall (fun v => v < n) l /\ match prev, l with Some p, v :: _ => p < v | _, _ => True end.
Proof.
  intros n. induction l as [|x l IH]; intros prev; cbn [isValid_loop].
  - split; auto. intros _. split; [constructor|]. split; auto. destruct prev; auto.
  - destruct (Nat.leb_spec n x).
    + split; [discriminate|]. intros [_ [F _]]. apply Forall_cons_iff in F. destruct F. lia.
    + destruct (match prev with None => false | Some p => x <=? p end) eqn:E.
      * split; [discriminate|]. intros [_ [_ P]]. destruct prev; [|discriminate]. apply Nat.leb_le in E. lia.
      * rewrite IH. split.
        -- intros [S1 [F1 P1]]. split; [|split].
           ++ constructor; auto. destruct l as [|u r]; auto.
              inversion S1 as [|? ? S2 F2]. subst. constructor; auto. eapply Forall_impl; [|exact F2]. cbn. intros. lia.
           ++ constructor; auto.
           ++ destruct prev as [p|]; auto. apply Nat.leb_gt in E. auto.
        -- intros [S1 [F1 P1]]. inversion S1 as [|? ? S2 F2]. subst. apply Forall_cons_iff in F1. destruct F1.
           split; auto. split; auto. destruct l; auto. apply Forall_cons_iff in F2. destruct F2. auto.
Qed.

Theorem C13_throws : forall ops w rs a m i t vis, history ops w rs -> live T w a m ->
  exists h g, grun ops = Ret (h, rs) /\ deref T h a = Ret g /\
    (isValidIndexSequence T g vis = true <-> valid_vis T m vis) /\
    exists h1 r1 h2 r2, gstep h (GAddFactor T a i t vis) = Ret (h1, r1) /\ (r1 = GThrown <-> ~ valid_vis T m vis) /\
      gstep h (GAddFactorNonFinalized T a i t vis) = Ret (h2, r2) /\ (r2 = GThrown <-> ~ valid_vis T m vis).
Proof.
  intros ops w rs a m i t vis H HL. destruct (history_sim T feqb ops w rs H) as [h [E I]].
  destruct (inv_live T h w a m I HL) as [g [D [_ R]]]. exists h, g. split; auto. split; auto.
  assert (NV : numberOfVariables T g = length (am_labels m)) by (unfold numberOfVariables; rewrite (r_space _ _ _ _ R); auto).
  split.
  - unfold isValidIndexSequence. rewrite isValid_spec, NV. unfold valid_vis. tauto.
  - assert (DEC : valid_vis T m vis \/ ~ valid_vis T m vis).
    { destruct (isValidIndexSequence T g vis) eqn:EV; [left|right]; unfold isValidIndexSequence in EV.
      - apply isValid_spec in EV. rewrite NV in EV. split; tauto.
      - intros [V1 V2]. apply Bool.not_true_iff_false in EV. apply EV. apply isValid_spec. rewrite NV. auto. }
    assert (G : forall ins, exists g' b, gm_addFactor T a ins g (i, t) vis = Ret (g', b) /\ (b = true <-> ~ valid_vis T m vis)).
    { intros ins. unfold gm_addFactor.
      destruct (addFactor_loop_total (numberOfVariables T g) (length (gm_factors g)) ins vis None (gm_adj g)) as [adj [b Eb]].
      - rewrite NV. apply (r_len _ _ _ _ R).
      - intros v s Es. destruct (r_adj _ _ _ _ R v s Es) as [A B]. split; auto.
        rewrite (Forall2_len _ _ _ _ _ (r_fcs _ _ _ _ R)). eapply Forall_impl; [|exact B]. cbn. intros. lia.
      - rewrite Eb. cbn [bind]. eexists. exists b. split; [reflexivity|].
        apply addFactor_loop_thrown in Eb. rewrite NV in Eb. unfold valid_vis in *. destruct b.
        + split; auto. intros _ HV. assert (true = false) by (apply Eb; tauto). discriminate.
        + split; [discriminate|]. intros HN. exfalso. apply HN. destruct (proj1 Eb eq_refl) as [A [B _]]. auto. }
    destruct (G true) as [g1 [b1 [E1 B1]]]. destruct (G false) as [g2 [b2 [E2 B2]]].
    cbn [GmModel.gstep]. rewrite D. cbn [bind]. rewrite E1, E2. cbn [bind].
    do 4 eexists. split; [reflexivity|]. split; [rewrite <- B1; destruct b1; split; congruence|].
    split; [reflexivity|]. rewrite <- B2; destruct b2; split; congruence.
Qed.

(** C14: a model is changed only by calls on that model; in particular other models may be modified,
    copied, assigned and destroyed. *)
Lemma history_snoc_inv : forall ops o w rs, history (ops ++ [o]) w rs ->
  exists w0 rs0 r, history ops w0 rs0 /\ legal T w0 o /\ astep T feqb w0 o = Some (w, r) /\ rs = rs0 ++ [r].
Proof.
  intros ops o w rs H. inversion H as [E|ops0 w0 rs0 o0 w' r H0 HL HA E]; [destruct ops; discriminate|].
  apply app_inj_tail in E. destruct E as [-> ->]. subst. eauto 8.
Qed.
Lemma history_det : forall ops w rs w' rs', history ops w rs -> history ops w' rs' -> w = w' /\ rs = rs'.
Proof.
  intros ops w rs w' rs' H. revert w' rs'. induction H as [|ops w rs o w1 r H IH HL HA]; intros w' rs' H'.
  - inversion H' as [|ops0 ? ? o0]; auto. destruct ops0; discriminate.
  - apply history_snoc_inv in H'. destruct H' as [w0 [rs0 [r' [H0 [_ [A0 ->]]]]]].
    destruct (IH _ _ H0) as [-> ->]. rewrite HA in A0. injection A0 as -> ->. auto.
Qed.
Lemma history_frame : forall ops1 w1 rs1 c om, history ops1 w1 rs1 -> nth_error w1 c = Some om ->
  forall ops2 w rs, history (ops1 ++ ops2) w rs -> Forall (fun o => targets T o <> Some c) ops2 ->
  nth_error w c = Some om.
Proof.
  intros ops1 w1 rs1 c om H1 Hc ops2. induction ops2 as [|o ops2 IH] using rev_ind; intros w rs H HF.
  - rewrite app_nil_r in H. destruct (history_det _ _ _ _ _ H1 H) as [<- _]. auto.
  - rewrite app_assoc in H. apply history_snoc_inv in H. destruct H as [w0 [rs0 [r [H0 [_ [A0 _]]]]]].
    apply Forall_app in HF. destruct HF as [HF1 HF2]. apply Forall_cons_iff in HF2. destruct HF2 as [HF2 _].
    specialize (IH _ _ H0 HF1). rewrite (astep_frame T feqb _ _ _ _ c A0 HF2); auto.
    apply nth_error_Some. congruence.
Qed.

Lemma prefix_history : forall ops1 ops2 w rs, history (ops1 ++ ops2) w rs -> exists w1 rs1, history ops1 w1 rs1.
Proof.
  intros ops1 ops2. induction ops2 as [|o ops2 IH] using rev_ind; intros w rs H.
  - rewrite app_nil_r in H. eauto.
  - rewrite app_assoc in H. apply history_snoc_inv in H. destruct H as [w0 [rs0 [r [H0 _]]]]. eauto.
Qed.

Theorem C14_unaffected : forall ops1 w1 rs1 c m ops2 w rs,
  history ops1 w1 rs1 -> live T w1 c m -> history (ops1 ++ ops2) w rs ->
  Forall (fun o => targets T o <> Some c) ops2 ->
  exists h1 h, grun ops1 = Ret (h1, rs1) /\ grun (ops1 ++ ops2) = Ret (h, rs) /\
    presents T h1 c m /\ presents T h c m /\
    (am_final m = true -> adjacency T h1 c m /\ adjacency T h c m) /\
    forall x, length (am_labels m) <= length x -> evaluate T OP h c x = evaluate T OP h1 c x.
Proof.
  intros ops1 w1 rs1 c m ops2 w rs H1 HL H HF.
  assert (HL2 : live T w c m) by (exact (history_frame _ _ _ c (Some m) H1 HL _ _ _ H HF)).
  destruct (history_sim T feqb _ _ _ H1) as [h1 [E1 I1]]. destruct (history_sim T feqb _ _ _ H) as [h [E I]].
  destruct (inv_live T _ _ _ _ I1 HL) as [g1 [D1 [_ R1]]]. destruct (inv_live T _ _ _ _ I HL2) as [g [D [_ R]]].
  exists h1, h. split; auto. split; auto.
  split; [eapply presents_rep; eauto|]. split; [eapply presents_rep; eauto|].
  split; [intros F; split; eapply adjacency_rep; eauto|].
  intros x Hx. destruct (evaluate_rep T OP h1 c g1 m x D1 R1 Hx) as [v1 [V1 ->]].
  destruct (evaluate_rep T OP h c g m x D R Hx) as [v2 [V2 ->]]. f_equal. congruence.
Qed.

(** A call that makes the model at address [c] a copy of the one at [a]: the copy constructor
    (which returns the address of the new model), or assignment. *)
Definition copies (w : world T) (o : gop T) (a c : nat) : Prop :=
  (o = GCopy T a /\ c = length w) \/ o = GAssign T c a.

(** A copy answers every query as the original did when it was copied, whatever happens
    afterwards to the original and to other models. *)
Theorem C14_copy : forall ops1 w1 rs1 a m o c ops2 w rs,
  history ops1 w1 rs1 -> live T w1 a m -> copies w1 o a c ->
  history (ops1 ++ o :: ops2) w rs -> Forall (fun o => targets T o <> Some c) ops2 ->
  exists h1 h, grun ops1 = Ret (h1, rs1) /\ grun (ops1 ++ o :: ops2) = Ret (h, rs) /\
    presents T h1 a m /\ presents T h c m /\
    (am_final m = true -> adjacency T h1 a m /\ adjacency T h c m) /\
    forall x, length (am_labels m) <= length x -> evaluate T OP h c x = evaluate T OP h1 a x.
Proof.
  intros ops1 w1 rs1 a m o c ops2 w rs H1 HL HC H HF.
  change (o :: ops2) with ([o] ++ ops2) in *. rewrite app_assoc in H.
  assert (exists w2 rs2, history (ops1 ++ [o]) w2 rs2) as [w2 [rs2 H2]] by (eapply prefix_history; eauto).
  assert (HL2 : live T w2 c m).
  { pose proof H2 as H2'. apply history_snoc_inv in H2'. destruct H2' as [w0 [rs0 [r [H0 [_ [A0 _]]]]]].
    destruct (history_det _ _ _ _ _ H1 H0) as [<- _]. clear H0 HF H. unfold live.
    destruct HC as [[-> ->]| ->]; cbn in A0; rewrite (lookup_live T _ _ _ HL) in A0.
    - injection A0 as <- <-. rewrite nth_error_app2, Nat.sub_diag by auto. auto.
    - destruct (lookup T w1 c) eqn:Ec; [|discriminate]. injection A0 as <- <-. unfold put. apply nth_error_upd_eq.
      apply lookup_inv in Ec. apply nth_error_Some. unfold live in Ec. congruence. }
  assert (HL3 : live T w c m) by (exact (history_frame _ _ _ c (Some m) H2 HL2 _ _ _ H HF)).
  destruct (history_sim T feqb _ _ _ H1) as [h1 [E1 I1]]. destruct (history_sim T feqb _ _ _ H) as [h [E I]].
  destruct (inv_live T _ _ _ _ I1 HL) as [g1 [D1 [_ R1]]]. destruct (inv_live T _ _ _ _ I HL3) as [g [D [_ R]]].
  exists h1, h. split; auto. split; [rewrite app_assoc; auto|].
  split; [eapply presents_rep; eauto|]. split; [eapply presents_rep; eauto|].
  split; [intros F; split; eapply adjacency_rep; eauto|].
  intros x Hx. destruct (evaluate_rep T OP h1 a g1 m x D1 R1 Hx) as [v1 [V1 ->]].
  destruct (evaluate_rep T OP h c g m x D R Hx) as [v2 [V2 ->]]. f_equal. congruence.
Qed.

(** Assignment from a model with a different function type list preserves labels, factors
    (variables and functions) and evaluate. *)
Theorem C14_cross_assign : forall ops w rs a b m tmap,
  history ops w rs -> live T w b m -> legal T w (GCrossAssign T a b tmap) ->
  exists h h', grun ops = Ret (h, rs) /\ gstep h (GCrossAssign T a b tmap) = Ret (h', GDone) /\
    (exists m', presents T h' a m' /\ (am_final m = true -> adjacency T h' a m') /\ am_labels m' = am_labels m /\
       Forall2 (fun fc fc' => snd fc' = snd fc /\
          am_function T m' (fst (fst fc')) (snd (fst fc')) = am_function T m (fst (fst fc)) (snd (fst fc)))
          (am_factors m) (am_factors m')) /\
    forall x, length (am_labels m) <= length x -> evaluate T OP h' a x = evaluate T OP h b x.
Proof.
  intros ops w rs a b m tmap H HL HG. destruct (history_sim T feqb _ _ _ H) as [h [E I]].
  destruct (legal_total T feqb w _ HG) as [w' [r A]]. pose proof A as A0. cbn in A.
  destruct HG as [Ne [ma [mb [La [Lb [LT [HK [HI HN]]]]]]]].
  assert (mb = m) as -> by (unfold live in *; congruence).
  rewrite (lookup_live T _ _ _ La), (lookup_live T _ _ _ Lb) in A. injection A as Ew Er.
  destruct (step_sim T feqb h w (GCrossAssign T a b tmap) w' r I) as [h' [E' I']]; auto.
  { split; auto. exists ma, m. auto 10. }
  exists h, h'. split; auto. split; [rewrite <- Er in E'; auto|].
  set (M := mkA (am_labels m) (merge_funs T tmap (am_funs m) (am_funs ma)) (map (rename_type tmap) (am_factors m)) (am_final m)) in *.
  assert (LM : live T w' a M).
  { rewrite <- Ew. unfold live, put. apply nth_error_upd_eq. apply nth_error_Some. unfold live in La. congruence. }
  destruct (inv_live T _ _ _ _ I' LM) as [g' [D' [_ R']]]. destruct (inv_live T _ _ _ _ I Lb) as [g [D [_ R]]].
  assert (F2 : forall fc, wf_factor T m fc -> snd (rename_type tmap fc) = snd fc /\
     am_function T M (fst (fst (rename_type tmap fc))) (snd (fst (rename_type tmap fc))) = am_function T m (fst (fst fc)) (snd (fst fc))).
  { intros [[i t] vis] [[f [Ef _]] _]. cbn [fst snd rename_type] in *. split; auto.
    unfold am_function in Ef. destruct (nth_error (am_funs m) t) as [fs|] eqn:E1; [|discriminate].
    assert (t < length tmap) by (rewrite LT; apply nth_error_Some; congruence).
    destruct (nth_error_lt _ tmap t H0) as [[k|] Et]; rewrite Et.
    - unfold am_function, M. cbn [am_funs]. rewrite (merge_nth T tmap _ _ t k) by auto. auto.
    - rewrite (HN t Et) in E1. injection E1 as <-. destruct i; discriminate. }
  assert (MF : am_factors M = map (rename_type tmap) (am_factors m)) by reflexivity.
  assert (ML : am_labels M = am_labels m) by reflexivity.
  assert (MB : am_final M = am_final m) by reflexivity.
  clearbody M. split.
  - exists M. split; [eapply presents_rep; eauto|]. split; [intros F; eapply adjacency_rep; eauto; congruence|]. split; auto.
    rewrite MF. pose proof (r_wf _ _ _ _ R) as W.
    clear - F2 W. induction (am_factors m) as [|fc fs IH]; cbn; constructor.
    + apply Forall_cons_iff in W. destruct W as [W1 W2]. apply F2. exact W1.
    + apply Forall_cons_iff in W. destruct W as [W1 W2]. apply IH. exact W2.
  - intros x Hx.
    destruct (evaluate_rep T OP h b g m x D R Hx) as [v1 [V1 ->]].
    destruct (evaluate_rep T OP h' a g' M x D' R' ltac:(congruence)) as [v2 [V2 ->]]. f_equal.
    assert (combine T OP M x = combine T OP m x); [|congruence].
    unfold combine. rewrite MF. pose proof (r_wf _ _ _ _ R) as W. generalize (o_neutral OP).
    clear - F2 W. induction (am_factors m) as [|[[i t] vis] fs IH]; intros acc; auto.
    apply Forall_cons_iff in W. destruct W as [W1 W]. destruct (F2 _ W1) as [_ F3]. cbn [fst snd rename_type] in F3.
    cbn [map rename_type combine_from]. rewrite F3. destruct (am_function T m i t); auto.
Qed.

(** C33: the look-up used by property queries (binaryProperty, valueProperty) finds the function of
    the factor when the type list has one type or at least three. *)
Theorem C33_property_lookup_partial : forall ops w rs, history ops w rs ->
  exists h, grun ops = Ret (h, rs) /\
  forall a m, live T w a m -> length (am_funs m) <> 2 ->
  forall k i t vis, nth_error (am_factors m) k = Some ((i, t), vis) ->
  exists g fc f, deref T h a = Ret g /\ rd (gm_factors g) k = Ret fc /\
    am_function T m i t = Some f /\ fc_property_function T h fc = Ret f.
Proof.
  intros ops w rs H. destruct (history_sim T feqb _ _ _ H) as [h [E I]]. exists h. split; auto.
  intros a m HL N2 k i t vis Ek. destruct (inv_live T _ _ _ _ I HL) as [g [D [_ R]]].
  destruct (Forall2_nth_r _ _ _ _ _ _ _ (r_fcs _ _ _ _ R) Ek) as [fc [Efc Rfc]].
  assert (W : wf_factor T m ((i, t), vis)).
  { pose proof (r_wf _ _ _ _ R) as F. rewrite Forall_forall in F. apply F. eapply nth_error_In; eauto. }
  destruct W as [[f [Ef Hd]] _]. cbn [fst snd] in *.
  exists g, fc, f. split; auto. split; [apply rd_Ret; auto|]. split; auto.
  assert (EQ : fc_property_function T h fc = fc_function T h fc).
  { unfold fc_property_function, fc_function, fc_function_by. assert (fc_gm fc = a) as -> by apply Rfc. rewrite D. cbn [bind].
    rewrite (r_funs _ _ _ _ R). destruct (length (am_funs m)) as [|[|[|n]]]; auto. contradiction. }
  rewrite EQ. eapply fc_function_rep; eauto. apply (r_funs _ _ _ _ R).
Qed.
End Props.
Print Assumptions C11_evaluate.
Print Assumptions C11_progress.
Print Assumptions C11_sharing.
Print Assumptions C12_adjacency.
Print Assumptions C12_adj_of.
Print Assumptions C12_finalize.
Print Assumptions C13_throws.
Print Assumptions C14_unaffected.
Print Assumptions C14_copy.
Print Assumptions C14_cross_assign.
Print Assumptions C33_property_lookup_partial.

(** ** Refutations and examples, over integers with addition *)
Definition adderZ : oper Z := mkOper 0%Z (fun a b => (a + b)%Z) (fun a b => (b - a)%Z).
Definition fn (shape : list nat) (f : list nat -> Z) : func Z := mkFunc shape f.
Definition same_table (f g : func Z) : bool := false.
Definition u0 : func Z := fn [2] (fun c => match c with [0] => 3%Z | _ => 5%Z end).
Definition u1 : func Z := fn [2] (fun c => match c with [0] => 7%Z | _ => 11%Z end).
Definition p01 : func Z := fn [2; 3] (fun c => match c with [a; b] => Z.of_nat (10 * a + b) | _ => 0%Z end).

(** C13 does not hold: a rejected addFactor leaves the factor in the model, and evaluate is
    then undefined. *)
Theorem C13_unchanged_refuted : exists ops h rs h' g g',
  grun Z same_table ops = Ret (h, rs) /\
  (exists w, history Z same_table ops w rs) /\
  gstep Z same_table h (GAddFactor Z 0 0 0 [5]) = Ret (h', GThrown) /\
  deref Z h 0 = Ret g /\ deref Z h' 0 = Ret g' /\
  numberOfFactors Z g = 0 /\ numberOfFactors Z g' = 1 /\
  factorOrder Z g <> factorOrder Z g' /\
  evaluate Z adderZ h 0 [0] = Ret 0%Z /\ evaluate Z adderZ h' 0 [0] = Undef.
Proof.
  exists [GNew Z 1 [2]; GAddFunction Z 0 0 u0]. do 5 eexists.
  split; [reflexivity|]. split.
  { eexists. change [GNew Z 1 [2]; GAddFunction Z 0 0 u0] with (([] ++ [GNew Z 1 [2]]) ++ [GAddFunction Z 0 0 u0]).
    eapply (H_snoc Z same_table _ _ [GIndex 0] _ _ (GFid 0 0)); [eapply (H_snoc Z same_table [] [] [] _ _ (GIndex 0)); [constructor|exact I|reflexivity]| |reflexivity].
    eexists. split; [reflexivity|]. cbn. lia. }
  split; [reflexivity|]. split; [reflexivity|]. split; [reflexivity|].
  repeat split; vm_compute; congruence.
Qed.
Print Assumptions C13_unchanged_refuted.

(** A rejected factor may already be listed by some of its variables. *)
Theorem C13_adjacency_refuted : exists h h' g',
  gstep Z same_table h (GAddFactor Z 0 0 0 [0; 5]) = Ret (h', GThrown) /\
  deref Z h' 0 = Ret g' /\ numberOfFactorsOf Z g' 0 = Ret 1.
Proof. exists [Some (gm_new Z 1 [2])]. do 2 eexists. repeat split; reflexivity. Qed.

(** C33 does not hold for a list of two function types: a factor with a function of the first type is
    answered for with a function of the second, or memory outside of the list is read. *)
Theorem C33_two_types_refuted : exists ops h rs g fc f f',
  grun Z same_table ops = Ret (h, rs) /\ deref Z h 0 = Ret g /\ rd (gm_factors g) 0 = Ret fc /\
  fc_function Z h fc = Ret f /\ fc_property_function Z h fc = Ret f' /\ f_call f [0] = 3%Z /\ f_call f' [0] = 7%Z.
Proof.
  exists [GNew Z 2 [2]; GAddFunction Z 0 0 u0; GAddFunction Z 0 1 u1; GAddFactor Z 0 0 0 [0]].
  do 6 eexists. repeat split; reflexivity.
Qed.
Theorem C33_two_types_out_of_bounds_refuted : exists ops h rs g fc f,
  grun Z same_table ops = Ret (h, rs) /\ deref Z h 0 = Ret g /\ rd (gm_factors g) 0 = Ret fc /\
  fc_function Z h fc = Ret f /\ fc_property_function Z h fc = Undef.
Proof.
  exists [GNew Z 2 [2]; GAddFunction Z 0 0 u0; GAddFactor Z 0 0 0 [0]].
  do 5 eexists. repeat split; reflexivity.
Qed.
Print Assumptions C33_two_types_refuted.

(** C34: a factor assigned from a factor of another model takes over the function identifier and the
    variables, but keeps looking functions up in its old model. *)
Theorem C34_factor_assignment_refuted : exists ops h rs g0 g1 fc0 fc1,
  grun Z same_table ops = Ret (h, rs) /\ deref Z h 0 = Ret g0 /\ deref Z h 1 = Ret g1 /\
  rd (gm_factors g0) 0 = Ret fc0 /\ rd (gm_factors g1) 0 = Ret fc1 /\
  fc_value Z h fc1 [0] = Ret 7%Z /\ fc_value Z h (fc_assign fc0 fc1) [0] = Ret 3%Z.
Proof.
  exists [GNew Z 1 [2]; GAddFunction Z 0 0 u0; GAddFactor Z 0 0 0 [0];
          GNew Z 1 [2]; GAddFunction Z 1 0 u1; GAddFactor Z 1 0 0 [0]].
  do 6 eexists. repeat split; reflexivity.
Qed.
Print Assumptions C34_factor_assignment_refuted.

(** Within one model assignment of factors is exact. *)
Theorem C34_factor_assignment_partial : forall (dst src : factor), fc_gm dst = fc_gm src -> fc_assign dst src = src.
Proof. intros dst [a b c d e f] H. cbn in H. unfold fc_assign. cbn. rewrite H. auto. Qed.

(** A legal history with two models, sharing, non-finalized factors, a copy and the destruction of
    the original. *)
Example gm_ops : list (gop Z) :=
  [GNew Z 2 [2; 3]; GAddFunction Z 0 0 u0; GAddFunction Z 0 1 p01; GAddFactor Z 0 0 0 [0];
   GAddFactorNonFinalized Z 0 0 1 [0; 1]; GFinalize Z 0; GCopy Z 0; GAddVariable Z 0 4; GDestroy Z 0].
Example gm_history : exists w rs m, history Z same_table gm_ops w rs /\ live Z w 1 m /\ am_final m = true /\
  length (am_factors m) = 2 /\ combine Z adderZ m [1; 2] = Some 17%Z.
Proof.
  assert (G : forall ops w rs o, history Z same_table ops w rs -> legal Z w o ->
     forall w' r, astep Z same_table w o = Some (w', r) -> history Z same_table (ops ++ [o]) w' (rs ++ [r])).
  { intros. eapply H_snoc; eauto. }
  pose proof (H_nil Z same_table) as H.
  eapply (G _ _ _ (GNew Z 2 [2; 3])) in H; [|exact I|reflexivity]. cbn in H.
  eapply (G _ _ _ (GAddFunction Z 0 0 u0)) in H; [|eexists; split; [reflexivity|cbn; auto]|reflexivity]. cbn in H.
  eapply (G _ _ _ (GAddFunction Z 0 1 p01)) in H; [|eexists; split; [reflexivity|cbn; auto]|reflexivity]. cbn in H.
  eapply (G _ _ _ (GAddFactor Z 0 0 0 [0])) in H; [|eexists; split; [reflexivity|split; [eexists; split; reflexivity|split; [repeat constructor|repeat constructor; cbn; lia]]]|reflexivity]. cbn in H.
  eapply (G _ _ _ (GAddFactorNonFinalized Z 0 0 1 [0; 1])) in H; [|eexists; split; [reflexivity|split; [eexists; split; reflexivity|split; [repeat constructor; lia|repeat constructor; cbn; lia]]]|reflexivity]. cbn in H.
  eapply (G _ _ _ (GFinalize Z 0)) in H; [|eexists; reflexivity|reflexivity]. cbn in H.
  eapply (G _ _ _ (GCopy Z 0)) in H; [|eexists; reflexivity|reflexivity]. cbn in H.
  eapply (G _ _ _ (GAddVariable Z 0 4)) in H; [|eexists; reflexivity|reflexivity]. cbn in H.
  eapply (G _ _ _ (GDestroy Z 0)) in H; [|eexists; reflexivity|reflexivity]. cbn in H.
  do 3 eexists. split; [exact H|]. split; [reflexivity|]. repeat split.
Qed.
Example gm_runs : exists h rs, grun Z same_table gm_ops = Ret (h, rs) /\
  evaluate Z adderZ h 1 [1; 2] = Ret 17%Z /\ evaluate Z adderZ h 0 [1; 2] = Undef /\
  exists g, deref Z h 1 = Ret g /\ gm_adj g = [[0; 1]; [1]].
Proof. do 2 eexists. split; [reflexivity|]. split; [reflexivity|]. split; [reflexivity|]. eexists. split; reflexivity. Qed.

(** Sharing: with a real comparison of tables the second function is not stored again. *)
Definition eq_unary (f g : func Z) : bool :=
  match f_shape f, f_shape g with
  | [n], [n'] => (n =? n') && forallb (fun l => Z.eqb (f_call f [l]) (f_call g [l])) (seq 0 n)
  | _, _ => false
  end.
Example eq_unary_sound : forall f g, eq_unary f g = true ->
  f_shape f = f_shape g /\ forall c, in_shape (f_shape f) c -> f_call f c = f_call g c.
Proof.
  intros f g H. unfold eq_unary in H. destruct (f_shape f) as [|n [|]]; try discriminate. destruct (f_shape g) as [|n' [|]]; try discriminate.
  apply andb_prop in H. destruct H as [H1 H2]. apply Nat.eqb_eq in H1. subst. split; auto.
  intros c HC. inversion HC as [|l ? ? ? HL HR]. subst. inversion HR. subst. rewrite forallb_forall in H2.
  apply Z.eqb_eq, H2, in_seq. lia.
Qed.
Example gm_sharing : exists h, foldM (add_item Z eq_unary 0) [((true, 0), (u0, [0])); ((true, 0), (u0, [1])); ((false, 0), (u0, [0]))]
    [Some (gm_new Z 1 [2; 2])] = Ret h /\ evaluate Z adderZ h 0 [0; 1] = Ret 11%Z /\
    exists g, deref Z h 0 = Ret g /\ map (@length _) (gm_funs g) = [2].
Proof. eexists. split; [reflexivity|]. split; [reflexivity|]. eexists. split; reflexivity. Qed.

(** Assignment to a model with another type list. *)
Example gm_cross : exists h rs, grun Z same_table
   [GNew Z 2 [2]; GAddFunction Z 0 1 u1; GAddFactor Z 0 0 1 [0]; GNew Z 3 []; GCrossAssign Z 1 0 [None; Some 2]] = Ret (h, rs) /\
   last rs GThrown = GDone /\ evaluate Z adderZ h 1 [0] = Ret 7%Z.
Proof. do 2 eexists. split; [reflexivity|]. split; reflexivity. Qed.
