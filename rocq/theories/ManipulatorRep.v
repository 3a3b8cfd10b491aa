(** Proofs for C20: functions of a modified model that stand for factors of the original one. *)
From Verif Require Import Base Values GmView GmViewSpec ShapeSpec ShapeProofs GmProofs GmViewProofs OperationsModel GmViewProps
  UtilModel UtilProps FunctionViewsModel FunctionViewsProps MovemakerModel MovemakerSpec MovemakerProofs MovemakerSearch MovemakerProps IcmProofs SubmodelModel SubmodelProps
  DpProofs ManipulatorModel ManipulatorSpec.
From Coq Require Import Sorted.
#[local] Arguments nth_error : simpl never.

Lemma extends_length : forall fx z, extends fx z -> length z = length fx.
Proof. intros fx z H. symmetry. exact (GmProofs.Forall2_len _ _ _ _ _ H). Qed.
Lemma extends_nth : forall fx z v l, extends fx z -> nth v fx None = Some l -> nth v z 0 = l.
Proof.
  intros fx z v l H E. destruct (nth_error fx v) as [o|] eqn:Eo.
  - rewrite (nth_error_nth _ _ None Eo) in E. subst o. destruct (Forall2_nth_l _ _ _ _ _ _ _ H Eo) as (k & Ek & ->). apply nth_error_nth. auto.
  - apply nth_error_None in Eo. rewrite nth_overflow in E by auto. discriminate.
Qed.
Lemma extends_intro : forall fx z, length z = length fx -> (forall v l, nth v fx None = Some l -> nth v z 0 = l) -> extends fx z.
Proof.
  unfold extends. intros fx. induction fx as [|o fx IH]; intros [|l z] HL H; try discriminate; constructor.
  - destruct o as [k|]; auto. specialize (H 0 k eq_refl). auto.
  - apply IH; [cbn in HL; lia|]. intros v k Hv. apply (H (S v) k Hv).
Qed.
Lemma free_vars_In : forall fx v, In v (free_vars fx) <-> v < length fx /\ is_free fx v = true.
Proof. intros. unfold free_vars. rewrite filter_In, in_seq. intuition lia. Qed.
Lemma not_free : forall fx v, is_free fx v = false -> exists l, nth v fx None = Some l.
Proof. intros fx v H. unfold is_free in H. destruct (nth v fx None); [eauto|discriminate]. Qed.
Lemma sorted_filter_seq : forall p a n, StronglySorted lt (filter p (seq a n)).
Proof.
  intros p a n. revert a. induction n as [|n IH]; intros a; cbn; [constructor|]. destruct (p a); auto. constructor; auto.
  apply Forall_forall. intros x Hx. apply filter_In in Hx. destruct Hx as [Hx _]. apply in_seq in Hx. lia.
Qed.
Lemma labels_of_length : forall T (g : gmv T) vars, length (labels_of g vars) = length vars.
Proof. intros. apply map_length. Qed.

Lemma firstn_snoc : forall A (l : list A) j a, nth_error l j = Some a -> firstn (S j) l = firstn j l ++ [a].
Proof.
  intros A l j a E. apply nth_error_split in E. destruct E as (b & c & -> & <-). rewrite !firstn_app, Nat.sub_diag, firstn_all.
  replace (S (length b) - length b) with 1 by lia. rewrite firstn_all2 by lia. cbn. rewrite app_nil_r. auto.
Qed.

Section S.
Variable T : Type.
Variable OP : oper T.
Variable fin : T -> Prop.
Hypothesis OL : op_laws fin OP.
Variable g : gmv T.
Hypothesis W : wf_gmv g.
Hypothesis FG : fin_gmv fin g.
Variable fx : fixes.
Let n := length (v_labels g).
Hypothesis LFX : length fx = n.
Definition fixes_ok : Prop := forall v l, nth v fx None = Some l -> l < nth v (v_labels g) 0.

(** [z] agrees with the fixed labels and restricts to [y]. *)
Definition restr (vars y z : list nat) : Prop := extends fx z /\ at_vars z vars = y.

Definition rval (r : nat + T) (z : list nat) : T := match r with inl k => val T OP g k z | inr c => c end.
Definition rfold (rs : list (nat + T)) (z : list nat) : T := fold_left (fun acc r => o_op OP (rval r z) acc) rs (o_neutral OP).

Definition rep_ok (vars : list nat) (r : nat + T) (sf : list nat * sfun T) : Prop :=
  match r with
  | inr c => sf = ([], SView (mkFacv [] (fun _ => c)))
  | inl k => exists fc, nth_error (v_factors g) k = Some fc /\ Forall (fun i => i < length vars) (fst sf) /\
    match snd sf with
    | SView f => fa_shape f = map (fun v => nth v (v_labels g) 0) (fst fc) /\ fa_value f = snd fc /\ length (fst sf) = length (fst fc) /\
        forall y z, restr vars y z -> at_vars y (fst sf) = at_vars z (fst fc)
    | SFix v => exists f fixed, fixing (length (fa_shape f)) fixed /\ vf_ok T f fixed v /\
        fa_shape f = map (fun v => nth v (v_labels g) 0) (fst fc) /\ fa_value f = snd fc /\ length (fst sf) = length (fst fc) - length fixed /\
        forall y z, restr vars y z -> filled (length (fst fc)) fixed (at_vars y (fst sf)) (at_vars z (fst fc))
    end
  end.

Lemma restr_length : forall vars y z, restr vars y z -> length y = length vars.
Proof. intros vars y z [_ <-]. apply at_length. Qed.

Lemma rep_step : forall vars y z i r acc fs rs, restr vars y z -> Forall2 (rep_ok vars) rs fs -> nth_error rs i = Some r ->
  exists fs', sub_step T OP y (fs, acc) i = Ret (fs', o_op OP (rval r z) acc) /\ Forall2 (rep_ok vars) rs fs'.
Proof.
  intros vars y z i r acc fs rs Hy H2 Ei. destruct (Forall2_nth_l _ _ _ _ _ _ _ H2 Ei) as ([vis f] & Ef & SF). unfold sub_step. cbn [fst snd].
  rewrite (rd_Ret _ _ _ _ Ef). cbn [bind]. assert (Lfs : i < length fs) by (apply nth_error_Some; congruence).
  destruct r as [k|c]; cbn [rep_ok] in SF.
  2:{ injection SF as -> ->. cbn. rewrite wr_Ret by auto. cbn [bind]. exists fs. split; auto. rewrite upd_same by auto. auto. }
  destruct SF as (fc & Ek & HB & SF). cbn [fst snd] in *.
  assert (LY : length y = length vars) by (eapply restr_length; eauto).
  rewrite mapM_rd by (rewrite LY; auto). cbn [bind rval].
  assert (V : val T OP g k z = snd fc (at_vars z (fst fc))) by (unfold val; rewrite Ek; auto).
  destruct f as [f|v].
  - destruct SF as (S1 & S2 & LL & S3). unfold view_value, fa_call. rewrite at_length, S1, map_length.
    rewrite (proj2 (Nat.eqb_eq _ _) LL). cbn [bind]. rewrite wr_Ret by auto. cbn [bind]. rewrite S2, V, (S3 y z Hy).
    eexists. split; [reflexivity|]. rewrite upd_same by auto. auto.
  - destruct SF as (f & fixed & F & OV & S1 & S2 & S3 & S4).
    destruct (vf_call_ok T f fixed v (at_vars y vis) F OV) as (v' & c & E & O' & HC).
    { rewrite at_length, S3, S1, map_length. auto. }
    rewrite E. cbn [bind]. rewrite wr_Ret by auto. cbn [bind]. rewrite S1, map_length in HC.
    rewrite (filled_unique _ _ _ _ _ ltac:(rewrite S1, map_length in F; exact F) HC (S4 y z Hy)), S2, V.
    eexists. split; [reflexivity|]. apply Forall2_upd_r with (a := inl k); auto. exists fc. split; auto. cbn [fst snd]. split; auto. exists f, fixed. repeat (split; auto).
Qed.
Lemma rep_evaluate : forall vars rs s y z, restr vars y z -> Forall2 (rep_ok vars) rs (s_factors s) ->
  exists s', sub_evaluate T OP s y = Ret (s', rfold rs z) /\ s_labels s' = s_labels s /\ Forall2 (rep_ok vars) rs (s_factors s').
Proof. clear LFX FG W OL.
  intros vars rs s y z Hy H2. unfold sub_evaluate. rewrite <- (GmProofs.Forall2_len _ _ _ _ _ H2).
  assert (G : forall j, j <= length rs -> exists fs, foldM (sub_step T OP y) (seq 0 j) (s_factors s, o_neutral OP) =
     Ret (fs, rfold (firstn j rs) z) /\ Forall2 (rep_ok vars) rs fs).
  { induction j as [|j IH]; intros Hj; [exists (s_factors s); split; auto|]. destruct IH as (fs & E & H); [lia|].
    rewrite seq_S, foldM_app, E. cbn [bind foldM]. rewrite Nat.add_0_l. destruct (nth_error rs j) as [r|] eqn:Er; [|apply nth_error_None in Er; lia].
    destruct (rep_step vars y z j r (rfold (firstn j rs) z) fs rs Hy H Er) as (fs' & E' & H').
    rewrite E'. cbn [bind]. exists fs'. split; auto. f_equal. f_equal. rewrite (firstn_snoc _ _ _ _ Er). unfold rfold. rewrite fold_left_app. auto. }
  destruct (G (length rs) (le_n _)) as (fs & E & H). rewrite E. cbn [bind]. exists (mkSub (s_labels s) fs). rewrite firstn_all. auto.
Qed.

Definition all_free (vis : list nat) : bool := forallb (is_free fx) vis.
Definition all_fixed (vis : list nat) : bool := forallb (fun v => negb (is_free fx v)) vis.

(** What the split of a factor gives. *)
Definition split_rel (vars vis inner : list nat) (fixed : list pal) : Prop :=
  fixing (length vis) fixed /\ StronglySorted lt inner /\ Forall (fun i => i < length vars) inner /\
    (forall p l, In (p, l) fixed -> exists v, nth_error vis p = Some v /\ nth v fx None = Some l) /\
    (forall p v, nth_error vis p = Some v -> is_free fx v = false -> In p (map fst fixed)) /\
    Forall2 (fun i p => exists v, nth_error vis p = Some v /\ nth_error vars i = Some v /\ is_free fx v = true) inner (free (length vis) fixed).
Lemma split_inner : forall vars vis inner fixed, split_rel vars vis inner fixed -> length inner = length vis - length fixed.
Proof. clear LFX FG W OL. intros vars vis inner fixed (F & _ & _ & _ & _ & H2). rewrite <- (free_length _ _ F). exact (GmProofs.Forall2_len _ _ _ _ _ H2). Qed.
Lemma split_free : forall vars vis inner fixed, split_rel vars vis inner fixed -> (length fixed =? 0) = all_free vis.
Proof. clear LFX FG W OL.
  intros vars vis inner fixed (F & _ & _ & HFX & HC & H2). unfold all_free. destruct fixed as [|[p l] fixed].
  - symmetry. cbn. apply forallb_forall. intros v Hv. apply In_nth_error in Hv. destruct Hv as [p Hp]. destruct (is_free fx v) eqn:E; auto. destruct (HC p v Hp E).
  - symmetry. cbn. apply not_true_is_false. intros X. rewrite forallb_forall in X. destruct (HFX p l (or_introl eq_refl)) as (v & Ev & El).
    specialize (X v (nth_error_In _ _ Ev)). unfold is_free in X. rewrite El in X. discriminate.
Qed.
Lemma split_fixed : forall vars vis inner fixed, split_rel vars vis inner fixed -> (length inner =? 0) = all_fixed vis.
Proof. clear LFX FG W OL.
  intros vars vis inner fixed (F & _ & _ & HFX & HC & H2). unfold all_fixed. destruct inner as [|i inner].
  - symmetry. cbn. apply forallb_forall. intros v Hv. apply In_nth_error in Hv. destruct Hv as [p Hp]. destruct (is_free fx v) eqn:E; auto. exfalso.
    assert (EF : free (length vis) fixed = []) by (inversion H2; auto). assert (X : In p (free (length vis) fixed)).
    { apply free_In. split; [split; [lia|apply nth_error_Some; congruence]|]. intros X. apply in_map_iff in X. destruct X as ([q l] & <- & Hq).
      destruct (HFX q l Hq) as (w & Ew & El). cbn [fst] in Hp. rewrite Hp in Ew. injection Ew as <-. unfold is_free in E. rewrite El in E. discriminate. }
    rewrite EF in X. destruct X.
  - symmetry. cbn. apply not_true_is_false. intros X. rewrite forallb_forall in X. inversion H2 as [|? p ? ps (v & Ev & _ & Fv) _]; subst.
    specialize (X v (nth_error_In _ _ Ev)). rewrite Fv in X. discriminate.
Qed.
Lemma split_fixed' : forall vars vis inner fixed, split_rel vars vis inner fixed -> (length fixed =? length vis) = all_fixed vis.
Proof. clear LFX FG W OL.
  intros vars vis inner fixed H. rewrite <- (split_fixed _ _ _ _ H). pose proof (split_inner _ _ _ _ H) as L.
  destruct H as ((F1 & F2) & _). assert (length fixed <= length vis).
  { rewrite <- (map_length fst). apply NoDup_bounded_length; [apply sorted_nodup; auto|]. intros q Hq. apply in_map_iff in Hq. destruct Hq as (pp & <- & Hq). rewrite Forall_forall in F2. auto. }
  destruct (Nat.eqb_spec (length fixed) (length vis)), (Nat.eqb_spec (length inner) 0); lia.
Qed.
Lemma split_filled : forall vars vis inner fixed y z, split_rel vars vis inner fixed -> restr vars y z ->
  filled (length vis) fixed (at_vars y inner) (at_vars z vis).
Proof. clear LFX FG W OL.
  intros vars vis inner fixed y z ([F1 F2] & _ & _ & HFX & _ & H2) [HE HR]. unfold at_vars. split; [apply map_length|]. split.
  - intros p l Hp. destruct (HFX p l Hp) as (v & Ev & El). assert (p < length vis) by (apply nth_error_Some; congruence).
    rewrite nth_map_in by auto. rewrite (nth_error_nth _ _ 0 Ev). eapply extends_nth; eauto.
  - induction H2 as [|i p inner ps (v & E1 & E2 & _) H2 IH]; auto. cbn [map]. f_equal; auto.
    assert (p < length vis) by (apply nth_error_Some; congruence). assert (i < length vars) by (apply nth_error_Some; congruence).
    rewrite nth_map_in by auto. rewrite (nth_error_nth _ _ 0 E1). rewrite <- HR. unfold at_vars. rewrite nth_map_in by auto. rewrite (nth_error_nth _ _ 0 E2). auto.
Qed.

(** The functions added for a factor. *)
Definition fvw (fc : list nat * (list nat -> T)) : facv T := mkFacv (map (fun v => nth v (v_labels g) 0) (fst fc)) (snd fc).
Lemma rep_view : forall vars k fc inner fixed, nth_error (v_factors g) k = Some fc -> split_rel vars (fst fc) inner fixed -> all_free (fst fc) = true ->
  rep_ok vars (inl k) (inner, SView (fvw fc)).
Proof. clear LFX FG W OL.
  intros vars k fc inner fixed Ek H A. exists fc. split; auto. cbn [fst snd]. rewrite <- (split_free _ _ _ _ H) in A. apply Nat.eqb_eq in A.
  destruct fixed as [|? ?]; [|discriminate]. split; [apply H|]. split; auto. split; auto. split; [rewrite (split_inner _ _ _ _ H); cbn; lia|].
  intros y z Hy. destruct (split_filled _ _ _ _ _ _ H Hy) as (A1 & A2 & A3). rewrite <- A3. unfold free. rewrite free_none by auto. rewrite <- A1 at 1. apply map_nth_seq.
Qed.
Lemma rep_fix : forall vars k fc inner fixed, nth_error (v_factors g) k = Some fc -> split_rel vars (fst fc) inner fixed ->
  exists v, vf_new (fvw fc) fixed = Ret v /\ rep_ok vars (inl k) (inner, SFix v).
Proof. clear LFX FG W OL.
  intros vars k fc inner fixed Ek H. assert (LF : length (fa_shape (fvw fc)) = length (fst fc)) by (cbn; apply map_length).
  destruct (vf_new_ok T (fvw fc) fixed) as (v & EV & OV); [rewrite LF; apply H|]. exists v. split; auto.
  exists fc. split; auto. cbn [fst snd]. split; [apply H|]. exists (fvw fc), fixed. split; [rewrite LF; apply H|]. split; auto. split; auto. split; auto.
  split; [apply (split_inner _ _ _ _ H)|]. intros y z Hy. apply (split_filled _ _ _ _ _ _ H Hy).
Qed.
Lemma rep_add : forall vars r inner h s rs, rep_ok vars r (inner, h) -> StronglySorted lt inner -> s_labels s = labels_of g vars -> Forall2 (rep_ok vars) rs (s_factors s) ->
  exists s', sub_addFactor T s h inner = Ret s' /\ s_labels s' = labels_of g vars /\ Forall2 (rep_ok vars) (rs ++ [r]) (s_factors s').
Proof. clear LFX FG W OL.
  intros vars r inner h s rs HR HS BL BF. unfold sub_addFactor. rewrite increasing_ok; auto.
  - eexists. split; [reflexivity|]. split; auto. cbn [s_factors]. apply Forall2_app; auto.
  - rewrite BL, labels_of_length. destruct r as [k|c]; cbn [rep_ok] in HR; [destruct HR as (? & _ & X & _); auto|]. injection HR as -> ->. constructor.
Qed.
(** The constant. *)
Definition z0 : list nat := map (fun o => match o with Some l => l | None => 0 end) fx.
Lemma z0_extends : extends fx z0.
Proof. unfold z0, extends. clear. induction fx as [|o f IH]; cbn; constructor; auto. destruct o; auto. Qed.
Lemma z0_labeling : fixes_ok -> labeling g z0.
Proof.
  intros FO. unfold labeling, in_shape. assert (L : length z0 = length (v_labels g)) by (unfold z0; rewrite map_length; auto).
  apply Forall2_nth_intro; auto. intros i Hi. unfold z0.
  rewrite L in Hi. rewrite (map_nth (fun o => match o with Some l => l | None => 0 end) fx None i : nth i (map _ fx) 0 = _).
  destruct (nth i fx None) as [l|] eqn:E; [apply FO; auto|].
  destruct W as [_ P]. unfold positive in P. rewrite Forall_forall in P. apply P. apply nth_In. auto.
Qed.

(** ** Splitting the variables of a factor *)
Variable m : man T.
Hypothesis HF : a_fix m = map (fun v => negb (is_free fx v)) (seq 0 n).
Hypothesis HL : length (a_lab m) = n.
Hypothesis HLn : forall v l, nth v fx None = Some l -> nth v (a_lab m) 0 = l.
Variable varMap : list nat.
Hypothesis LVM : length varMap = n.
Hypothesis LV2 : length (a_v2s m) = n.

Lemma rd_fix : forall v, v < n -> rd (a_fix m) v = Ret (negb (is_free fx v)).
Proof.
  intros v Hv. rewrite HF. apply rd_Ret. rewrite nth_error_map, (nth_error_nth' (seq 0 n) 0) by (rewrite seq_length; auto). rewrite seq_nth by auto. auto.
Qed.

Definition last_sub (vis : list nat) : nat := fold_left (fun a v => if is_free fx v then nth v (a_v2s m) 0 else a) vis 0.

Lemma man_split_ok : forall vars vis, StronglySorted lt vis -> Forall (fun v => v < n) vis -> StronglySorted lt vars ->
  (forall v, In v vis -> is_free fx v = true -> nth_error vars (nth v varMap 0) = Some v) ->
  exists inner fixed, man_split T m varMap vis = Ret (inner, fixed, last_sub vis) /\ fixing (length vis) fixed /\ StronglySorted lt inner /\ Forall (fun i => i < length vars) inner /\
    (forall p l, In (p, l) fixed -> exists v, nth_error vis p = Some v /\ nth v fx None = Some l) /\
    (forall p v, nth_error vis p = Some v -> is_free fx v = false -> In p (map fst fixed)) /\
    Forall2 (fun i p => exists v, nth_error vis p = Some v /\ nth_error vars i = Some v /\ is_free fx v = true) inner (free (length vis) fixed).
Proof.
  intros vars vis HS HB HV HM. unfold man_split.
  set (step := fun (p : list nat * list pal * nat) i => let '(mv, fx, sub) := p in v <- rd vis i ;; b <- rd (a_fix m) v ;;
           if b : bool then l <- rd (a_lab m) v ;; Ret (mv, fx ++ [(i, l)], sub)
           else j <- rd varMap v ;; s <- rd (a_v2s m) v ;; Ret (mv ++ [j], fx, s)).
  assert (G : forall j, j <= length vis -> exists inner fixed, foldM step (seq 0 j) ([], [], 0) = Ret (inner, fixed, last_sub (firstn j vis)) /\ fixing j fixed /\ StronglySorted lt inner /\ Forall (fun i => i < length vars) inner /\
    (forall p l, In (p, l) fixed -> exists v, nth_error vis p = Some v /\ nth v fx None = Some l) /\
    (forall p v, p < j -> nth_error vis p = Some v -> is_free fx v = false -> In p (map fst fixed)) /\
    Forall2 (fun i p => exists v, nth_error vis p = Some v /\ nth_error vars i = Some v /\ is_free fx v = true) inner (free j fixed)).
  { induction j as [|j IH]; intros Hj.
    - exists [], []. split; auto. split; [split; constructor|]. split; [constructor|]. split; [constructor|]. split; [intros p l []|]. split; [lia|constructor].
    - destruct IH as (inner & fixed & E & [F1 F2] & SI & BI & HFX & HC & H2); [lia|]. rewrite seq_S, foldM_app, E. cbn [bind foldM]. rewrite Nat.add_0_l. unfold step at 1.
      destruct (nth_error vis j) as [v|] eqn:Ev; [|apply nth_error_None in Ev; lia]. rewrite (rd_Ret _ _ _ _ Ev). cbn [bind].
      assert (Iv : In v vis) by (eapply nth_error_In; eauto).
      assert (Hv : v < n) by (rewrite Forall_forall in HB; auto).
      rewrite (firstn_snoc _ _ _ _ Ev). unfold last_sub. rewrite fold_left_app. fold (last_sub (firstn j vis)). cbn [fold_left].
      assert (FJ : fixed_at fixed j = false).
      { apply not_true_is_false. rewrite fixed_at_In, in_map_iff. intros (q & <- & Hq). rewrite Forall_forall in F2. specialize (F2 _ Hq). lia. }
      rewrite (rd_fix v Hv). cbn [bind]. destruct (is_free fx v) eqn:Fv; cbn [negb].
      + rewrite (rd_nth _ varMap v 0) by lia. cbn [bind]. rewrite (rd_nth _ (a_v2s m) v 0) by lia. cbn [bind].
        pose proof (HM v Iv Fv) as Hi. set (i := nth v varMap 0) in *.
        exists (inner ++ [i]), fixed. split; auto. split; [split; auto; eapply Forall_impl; [|exact F2]; intros [? ?] ?; cbn [fst] in *; lia|].
        assert (LT : Forall (fun b => b < i) inner).
        { apply Forall_forall. intros b Hb. apply In_nth_error in Hb. destruct Hb as [q Hq].
          destruct (Forall2_nth_l _ _ _ _ _ _ _ H2 Hq) as (p & Hp & (w & W1 & W2 & _)).
          apply (sorted_nth_lt vars b i w v); auto. apply (sorted_nth_lt' vis p j); auto. apply nth_error_In, free_In in Hp. lia. }
        split; [apply SSorted_snoc; auto|]. split; [apply Forall_app; split; auto; constructor; auto; apply nth_error_Some; congruence|]. split; auto.
        split.
        { intros p w Hp Ew Fw. destruct (Nat.eq_dec p j) as [->|]; [congruence|]. apply (HC p w); auto. lia. }
        rewrite free_S, FJ. apply Forall2_app; auto. constructor; [|constructor]. exists v. auto.
      + rewrite (rd_nth _ (a_lab m) v 0) by lia. cbn [bind]. destruct (not_free _ _ Fv) as (l & El). rewrite (HLn _ _ El).
        exists inner, (fixed ++ [(j, l)]). split; auto.
        split.
        { split.
          - rewrite map_app. cbn [map fst]. apply SSorted_snoc; auto. rewrite Forall_map. exact F2.
          - apply Forall_app. split; [eapply Forall_impl; [|exact F2]; intros [? ?] ?; cbn [fst] in *; lia|]. repeat constructor. }
        split; auto. split; auto. split.
        { intros p l' Hp. apply in_app_iff in Hp. destruct Hp as [Hp|[Hp|[]]]; auto. injection Hp as <- <-. eauto. }
        split.
        { intros p w Hp Ew Fw. rewrite map_app, in_app_iff. destruct (Nat.eq_dec p j) as [->|]; [right; left; auto|]. left. apply (HC p w); auto. lia. }
        rewrite free_S. replace (fixed_at (fixed ++ [(j, l)]) j) with true.
        2:{ symmetry. apply fixed_at_In. rewrite map_app. apply in_or_app. right. left. auto. }
        rewrite app_nil_r. unfold free. rewrite (free_ext 0 j _ fixed); auto.
        intros i Hi'. unfold fixed_at. rewrite existsb_app. cbn. destruct (Nat.eqb_spec j i); [lia|]. rewrite !orb_false_r. auto. }
  destruct (G (length vis) (le_n _)) as (inner & fixed & E & H1 & H2 & H3 & H4 & H5 & H6). rewrite firstn_all in E. exists inner, fixed.
  split; auto. split; auto. split; auto. split; auto. split; auto. split; auto.
  intros p v Ep Fv. apply (H5 p v); auto. apply nth_error_Some. congruence.
Qed.

End S.
