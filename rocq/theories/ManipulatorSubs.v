(** Proofs for C20: building the sub-models, and translating labelings back. *)
From Verif Require Import Base Values GmView GmViewSpec ShapeSpec ShapeProofs GmProofs GmViewProofs OperationsModel GmViewProps
  UtilModel UtilProps FunctionViewsModel FunctionViewsProps MovemakerModel MovemakerSpec MovemakerProofs IcmProofs SubmodelModel SubmodelProps
  DpProofs ManipulatorModel ManipulatorSpec ManipulatorRep ManipulatorExpand ManipulatorProofs.
From Coq Require Import Sorted Relation_Operators.
#[local] Arguments nth_error : simpl never.

Section S.
Variable T : Type.
Variable OP : oper T.
Variable fin : T -> Prop.
Hypothesis OL : op_laws fin OP.
Variable g : gmv T.
Hypothesis W : wf_gmv g.
Hypothesis FG : fin_gmv fin g.
Variable md : mode.
Let n := length (v_labels g).
Let nf := length (v_factors g).

Definition vars_of (fx : fixes) (v2s : list nat) (i : nat) : list nat := filter (fun v => nth v v2s 0 =? i) (free_vars fx).
Definition vars_to (fx : fixes) (v2s : list nat) (j i : nat) : list nat := filter (fun v => is_free fx v && (nth v v2s 0 =? i)) (seq 0 j).
Lemma vars_of_to : forall fx v2s i, length fx = n -> vars_of fx v2s i = vars_to fx v2s n i.
Proof. intros fx v2s i L. unfold vars_of, free_vars. rewrite L. apply filter_filter. Qed.
Lemma vars_to_S : forall fx v2s j i, vars_to fx v2s (S j) i = vars_to fx v2s j i ++ (if is_free fx j && (nth j v2s 0 =? i) then [j] else []).
Proof. intros. unfold vars_to. apply filter_S. Qed.
Lemma vars_of_In : forall fx v2s i v, In v (vars_of fx v2s i) <-> (v < length fx /\ is_free fx v = true) /\ nth v v2s 0 = i.
Proof. intros. unfold vars_of. rewrite filter_In, free_vars_In, Nat.eqb_eq. tauto. Qed.
Lemma vars_of_sorted : forall fx v2s i, length fx = n -> StronglySorted lt (vars_of fx v2s i).
Proof. intros. rewrite vars_of_to by auto. apply sorted_filter_seq. Qed.

Record comps_ok (fx : fixes) (v2s : list nat) (K : nat) : Prop := {
  co_pos : 0 < K;
  co_lt : forall v, v < n -> is_free fx v = true -> nth v v2s 0 < K;
  co_join : forall u v, u < n -> is_free fx u = true -> v < n -> is_free fx v = true -> (nth u v2s 0 = nth v v2s 0 <-> joined g fx u v);
  co_surj : forall i, i < K -> (exists v, v < n /\ is_free fx v = true /\ nth v v2s 0 = i) \/ (free_vars fx = [] /\ K = 1) }.

Section B.
Variable fx : fixes.
Variable m : man T.
Hypothesis FB : fixed_by T g fx m.
Hypothesis HT : a_tent m = repeat false nf.
Variable K : nat.
Notation v2s := (a_v2s m).
Hypothesis CO : comps_ok fx v2s K.
Let LFX : length fx = n. Proof. apply FB. Qed.
Notation vs := (vars_of fx v2s).
Let LV2 : length v2s = n. Proof. apply FB. Qed.

Lemma svarMap_ok : exists vm nvs, foldM (fun (p : list nat * list nat) v => b <- rd (a_fix m) v ;;
       if b : bool then Ret p
       else sp <- rd v2s v ;; c <- rd (snd p) sp ;; vm <- wr (fst p) v c ;; nvs <- wr (snd p) sp (S c) ;; Ret (vm, nvs))
      (seq 0 n) (repeat 0 n, repeat 0 K) = Ret (vm, nvs) /\
  length vm = n /\ nvs = map (fun i => length (vs i)) (seq 0 K) /\
  forall v, v < n -> is_free fx v = true -> nth_error (vs (nth v v2s 0)) (nth v vm 0) = Some v.
Proof.
  set (step := fun (p : list nat * list nat) v => b <- rd (a_fix m) v ;; if b : bool then Ret p
       else sp <- rd v2s v ;; c <- rd (snd p) sp ;; vm <- wr (fst p) v c ;; nvs <- wr (snd p) sp (S c) ;; Ret (vm, nvs)).
  assert (G : forall j, j <= n -> exists vm nvs, foldM step (seq 0 j) (repeat 0 n, repeat 0 K) = Ret (vm, nvs) /\ length vm = n /\ length nvs = K /\
    (forall i, i < K -> nth i nvs 0 = length (vars_to fx v2s j i)) /\
    forall v, v < j -> is_free fx v = true -> nth_error (vars_to fx v2s j (nth v v2s 0)) (nth v vm 0) = Some v).
  { induction j as [|j IH]; intros Hj.
    - exists (repeat 0 n), (repeat 0 K). split; auto. split; [apply repeat_length|]. split; [apply repeat_length|]. split; [|lia]. intros i _. apply nth_repeat.
    - destruct IH as (vm & nvs & E & L & LN & HN & H); [lia|]. rewrite seq_S, foldM_app, E. cbn [bind foldM]. rewrite Nat.add_0_l. unfold step at 1.
      rewrite (rd_f T g fx m FB j Hj). cbn [bind fst snd]. destruct (is_free fx j) eqn:Fj; cbn [negb].
      + assert (HK : nth j v2s 0 < K) by (apply CO; auto). set (sp := nth j v2s 0) in *.
        rewrite (rd_nth _ v2s j 0) by lia. cbn [bind]. fold sp. rewrite (rd_nth _ nvs sp 0) by lia. cbn [bind]. rewrite wr_Ret by lia. cbn [bind]. rewrite wr_Ret by lia. cbn [bind].
        do 2 eexists. split; [reflexivity|]. split; [rewrite length_upd; auto|]. split; [rewrite length_upd; auto|]. split.
        * intros i Hi. rewrite vars_to_S, Fj. cbn [andb]. fold sp. rewrite app_length. destruct (Nat.eqb_spec sp i) as [<-|N].
          -- rewrite nth_upd_eq by lia. rewrite HN by auto. cbn. lia.
          -- rewrite nth_upd_neq by auto. rewrite HN by auto. cbn. lia.
        * intros v Hv Fv. rewrite vars_to_S, Fj. cbn [andb]. fold sp. destruct (Nat.eq_dec v j) as [->|N].
          -- rewrite nth_upd_eq by lia. fold sp. rewrite Nat.eqb_refl. rewrite HN by auto. apply nth_error_snoc_last.
          -- rewrite nth_upd_neq by auto. rewrite nth_error_app1; [apply H; auto; lia|]. apply nth_error_Some. rewrite H by (auto; lia). discriminate.
      + exists vm, nvs. split; auto. split; auto. split; auto. split.
        * intros i Hi. rewrite vars_to_S, Fj. cbn [andb]. rewrite app_nil_r. auto.
        * intros v Hv Fv. rewrite vars_to_S, Fj. cbn [andb]. rewrite app_nil_r. apply H; auto. destruct (Nat.eq_dec v j) as [->|]; [congruence|lia]. }
  destruct (G n (le_n _)) as (vm & nvs & E & L & LN & HN & H). exists vm, nvs. split; auto. split; auto. split.
  - apply list_eq_nth; [rewrite map_length, seq_length; auto|]. intros i Hi. rewrite LN in Hi. rewrite HN by auto. rewrite nth_map_in by (rewrite seq_length; auto). rewrite seq_nth by auto.
    rewrite vars_of_to by auto. auto.
  - intros v Hv Fv. rewrite vars_of_to by auto. auto.
Qed.

Lemma sshape_ok : forall vm, length vm = n -> (forall v, v < n -> is_free fx v = true -> nth_error (vs (nth v v2s 0)) (nth v vm 0) = Some v) ->
  foldM (fun shs v => b <- rd (a_fix m) v ;; if b : bool then Ret shs
     else sp <- rd v2s v ;; i <- rd vm v ;; l <- rd (v_labels g) v ;; sh <- rd shs sp ;; sh <- wr sh i l ;; wr shs sp sh)
     (seq 0 n) (map (fun c => repeat 0 c) (map (fun i => length (vs i)) (seq 0 K))) = Ret (map (fun i => labels_of g (vs i)) (seq 0 K)).
Proof.
  intros vm L HM. set (step := fun shs v => b <- rd (a_fix m) v ;; if b : bool then Ret shs
     else sp <- rd v2s v ;; i <- rd vm v ;; l <- rd (v_labels g) v ;; sh <- rd shs sp ;; sh <- wr sh i l ;; wr shs sp sh).
  set (init := map (fun c => repeat 0 c) (map (fun i => length (vs i)) (seq 0 K))).
  assert (NI : forall i, i < K -> nth i init [] = repeat 0 (length (vs i))).
  { intros i Hi. unfold init. rewrite map_map. apply nth_error_nth. rewrite nth_error_map, (nth_error_nth' _ 0) by (rewrite seq_length; auto). rewrite seq_nth by auto. auto. }
  assert (G : forall j, j <= n -> exists shs, foldM step (seq 0 j) init = Ret shs /\ length shs = K /\ (forall i, i < K -> length (nth i shs []) = length (vs i)) /\
    forall v, v < j -> is_free fx v = true -> nth (nth v vm 0) (nth (nth v v2s 0) shs []) 0 = nth v (v_labels g) 0).
  { induction j as [|j IH]; intros Hj.
    - exists init. split; auto. split; [unfold init; rewrite !map_length, seq_length; auto|]. split; [|lia]. intros i Hi. rewrite NI by auto. apply repeat_length.
    - destruct IH as (shs & E & LS & LI & H); [lia|]. rewrite seq_S, foldM_app, E. cbn [bind foldM]. rewrite Nat.add_0_l. unfold step at 1.
      rewrite (rd_f T g fx m FB j Hj). cbn [bind]. destruct (is_free fx j) eqn:Fj; cbn [negb].
      + assert (HK : nth j v2s 0 < K) by (apply CO; auto). set (sp := nth j v2s 0) in *.
        rewrite (rd_nth _ v2s j 0) by lia. cbn [bind]. fold sp. rewrite (rd_nth _ vm j 0) by lia. cbn [bind]. rewrite (rd_nth _ (v_labels g) j 0) by auto. cbn [bind].
        rewrite (rd_nth _ shs sp []) by lia. cbn [bind].
        pose proof (HM j Hj Fj) as HMj. fold sp in HMj.
        assert (IX : nth j vm 0 < length (vs sp)) by (apply nth_error_Some; rewrite HMj; discriminate).
        rewrite wr_Ret by (rewrite LI; auto). cbn [bind]. rewrite wr_Ret by lia. cbn [bind]. eexists. split; [reflexivity|]. split; [rewrite length_upd; auto|]. split.
        * intros i Hi. destruct (Nat.eq_dec i sp) as [->|N]; [rewrite nth_upd_eq by lia; rewrite length_upd; auto|rewrite nth_upd_neq by auto; auto].
        * intros v Hv Fv. destruct (Nat.eq_dec v j) as [->|N].
          -- fold sp. rewrite nth_upd_eq by lia. rewrite nth_upd_eq by (rewrite LI; auto). auto.
          -- destruct (Nat.eq_dec (nth v v2s 0) sp) as [Es|Ns].
             ++ rewrite Es, nth_upd_eq by lia. rewrite nth_upd_neq; [rewrite <- Es; apply H; auto; lia|].
                intros X. pose proof (HM v ltac:(lia) Fv) as A. rewrite Es in A. congruence.
             ++ rewrite nth_upd_neq by auto. apply H; auto. lia.
      + exists shs. split; auto. split; auto. split; auto. intros v Hv Fv. apply H; auto. destruct (Nat.eq_dec v j) as [->|]; [congruence|lia]. }
  destruct (G n (le_n _)) as (shs & E & LS & LI & H). rewrite E. f_equal. apply nth_ext with (d := []) (d' := []); [rewrite map_length, seq_length; auto|].
  intros i Hi. rewrite LS in Hi. transitivity (labels_of g (vs i)).
  - apply list_eq_nth; [rewrite labels_of_length; auto|]. intros p Hp. rewrite LI in Hp by auto. unfold labels_of. rewrite nth_map_in by auto.
    destruct (nth_error (vs i) p) as [v|] eqn:Ep; [|apply nth_error_None in Ep; lia]. rewrite (nth_error_nth _ _ 0 Ep).
    pose proof (nth_error_In _ _ Ep) as Iv. apply vars_of_In in Iv. destruct Iv as [[Hv Fv] Ei]. rewrite LFX in Hv. rewrite <- (H v Hv Fv), Ei. f_equal.
    apply (nodup_pos (vs i) p (nth v vm 0) v); auto; [unfold vars_of; apply NoDup_filter; unfold free_vars; apply NoDup_filter, seq_NoDup|].
    rewrite <- Ei. apply HM; auto.
  - symmetry. apply nth_error_nth. rewrite nth_error_map, (nth_error_nth' _ 0) by (rewrite seq_length; auto). rewrite seq_nth by auto. auto.
Qed.

Definition keepS (vis : list nat) : bool := match md with FIX => negb (all_fixed fx vis) | DROP => all_free fx vis end.
Definition constS (vis : list nat) : bool := match md with FIX => all_fixed fx vis | DROP => false end.
Lemma KDS : md = DROP -> (forall vis, keepS vis = all_free fx vis) /\ (forall vis, constS vis = false).
Proof. unfold keepS, constS. intros ->. auto. Qed.
Lemma KFS : md = FIX -> (forall vis, constS vis = negb (keepS vis)) /\ (forall vis, constS vis = true -> all_fixed fx vis = true).
Proof. unfold constS, keepS. intros ->. split; auto. intros vis. rewrite negb_involutive. auto. Qed.

Notation lsub := (last_sub T fx m).
Lemma last_sub_gen : forall i vis a, (forall v, In v vis -> is_free fx v = true -> nth v v2s 0 = i) ->
  let r := fold_left (fun a v => if is_free fx v then nth v v2s 0 else a) vis a in
  r = i \/ r = a /\ all_fixed fx vis = true.
Proof.
  intros i vis. induction vis as [|v vis IH]; intros a H; [right; auto|]. cbn. destruct (is_free fx v) eqn:F; cbn [negb andb].
  - destruct (IH (nth v v2s 0)) as [E|[E _]]; [intros; apply H; auto; right; auto|auto|]. rewrite E, (H v); auto. left; auto.
  - apply IH. intros; apply H; auto. right; auto.
Qed.
Lemma last_sub_ok : forall k fc v, nth_error (v_factors g) k = Some fc -> In v (fst fc) -> is_free fx v = true -> nth v v2s 0 = lsub (fst fc).
Proof.
  intros k fc v Ek Hv Fv. destruct (wf_nth _ _ _ _ W Ek) as [_ HB]. rewrite Forall_forall in HB.
  destruct (last_sub_gen (nth v v2s 0) (fst fc) 0) as [E|[_ E]]; auto.
  - intros u Hu Fu. apply CO; auto; try (apply HB; auto). eapply rt1n_trans; [|apply rt1n_refl]. split; [exists fc; split; auto; eapply nth_error_In; eauto|]. split; auto. rewrite LFX. apply HB; auto.
  - unfold all_fixed in E. rewrite forallb_forall in E. specialize (E v Hv). rewrite Fv in E. discriminate.
Qed.
Lemma last_sub_lt : forall k fc, nth_error (v_factors g) k = Some fc -> lsub (fst fc) < K.
Proof.
  intros k fc Ek. destruct (all_fixed fx (fst fc)) eqn:A.
  - replace (lsub (fst fc)) with 0; [apply CO|]. symmetry. unfold last_sub, all_fixed in *. generalize (fst fc) A. clear. intros vis. induction vis as [|v vis IH]; auto. cbn. intros A. apply andb_prop in A. destruct A as [A B]. apply negb_true_iff in A. rewrite A. auto.
  - destruct (existsb (is_free fx) (fst fc)) eqn:X.
    + apply existsb_exists in X. destruct X as (v & Hv & Fv). rewrite <- (last_sub_ok k fc v Ek Hv Fv). apply CO; auto. destruct (wf_nth _ _ _ _ W Ek) as [_ HB]. rewrite Forall_forall in HB. apply HB; auto.
    + exfalso. assert (all_fixed fx (fst fc) = true); [|congruence]. apply forallb_forall. intros v Hv. apply negb_true_iff. apply not_true_is_false. intros Fv.
      assert (existsb (is_free fx) (fst fc) = true) by (apply existsb_exists; eauto). congruence.
Qed.

Definition ksub (j i : nat) : list nat := filter (visP T g (fun vis => keepS vis && (lsub vis =? i))) (seq 0 j).
Definition SI (j i : nat) (s : subgm T) : Prop := s_labels s = labels_of g (vs i) /\ Forall2 (rep_ok T g fx (vs i)) (map inl (ksub j i)) (s_factors s).

Lemma subfactors_ok : forall vm, length vm = n -> (forall v, v < n -> is_free fx v = true -> nth_error (vs (nth v v2s 0)) (nth v vm 0) = Some v) ->
  exists ss, foldM (man_subfactor T OP g md m vm) (seq 0 nf) (map (fun sh => mkSub sh []) (map (fun i => labels_of g (vs i)) (seq 0 K)), o_neutral OP) = Ret (ss, cst T OP g fx constS nf) /\
    length ss = K /\ forall i s, nth_error ss i = Some s -> SI nf i s.
Proof.
  intros vm L HM.
  assert (G : forall j, j <= nf -> exists ss, foldM (man_subfactor T OP g md m vm) (seq 0 j) (map (fun sh => mkSub sh []) (map (fun i => labels_of g (vs i)) (seq 0 K)), o_neutral OP) = Ret (ss, cst T OP g fx constS j) /\
    length ss = K /\ forall i s, nth_error ss i = Some s -> SI j i s).
  { induction j as [|j IH]; intros Hj.
    - eexists. split; [reflexivity|]. rewrite !map_length, seq_length. split; auto. intros i s Ei. rewrite map_map, nth_error_map in Ei.
      destruct (nth_error (seq 0 K) i) as [q|] eqn:Eq; [|discriminate]. cbn in Ei. injection Ei as <-.
      assert (Hi : i < length (seq 0 K)) by (apply nth_error_Some; congruence). rewrite seq_length in Hi.
      assert (q = i) by (rewrite (nth_error_nth' _ 0) in Eq by (rewrite seq_length; auto); rewrite seq_nth in Eq by auto; injection Eq; auto).
      subst q. split; auto. constructor.
    - destruct IH as (ss & E & LS & HI); [lia|]. rewrite seq_S, foldM_app, E. cbn [bind foldM]. rewrite Nat.add_0_l. unfold man_subfactor at 1.
      rewrite (rd_t T g m HT j Hj). cbn [bind]. destruct (nth_error (v_factors g) j) as [fc|] eqn:Ej; [|apply nth_error_None in Ej; unfold nf in Hj; lia].
      rewrite (rd_Ret _ _ _ _ Ej). cbn [bind]. unfold factor_facv. destruct (wf_nth _ _ _ _ W Ej) as [HS HB]. rewrite mapM_rd_shape by auto. cbn [bind]. fold (fvw T g fc).
      set (sp := lsub (fst fc)). assert (HK : sp < K) by (apply (last_sub_lt j); auto).
      destruct (man_split_ok T g fx LFX m (fb_fix _ _ _ _ FB) (fb_lablen _ _ _ _ FB) (fb_lab _ _ _ _ FB) vm L LV2 (vs sp) (fst fc) HS HB (vars_of_sorted _ _ _ LFX)) as (inner & fixed & ES & SR).
      { intros v Hv Fv. unfold sp. rewrite <- (last_sub_ok j fc v) by auto. apply HM; auto. rewrite Forall_forall in HB. apply HB; auto. }
      rewrite ES. cbn [bind]. fold sp. change (split_rel fx (vs sp) (fst fc) inner fixed) in SR.
      rewrite (split_free _ _ _ _ _ SR), (split_fixed T g _ _ _ _ _ SR).
      assert (CS : cst T OP g fx constS (S j) = if constS (fst fc) then o_op OP (val T OP g j (z0 fx)) (cst T OP g fx constS j) else cst T OP g fx constS j).
      { unfold cst. rewrite filter_S, fold_left_app. unfold visP at 1. rewrite Ej. destruct (constS (fst fc)); auto. }
      rewrite CS.
      assert (KS : forall i, ksub (S j) i = ksub j i ++ if keepS (fst fc) && (sp =? i) then [j] else []).
      { intros i. unfold ksub. rewrite filter_S. unfold visP at 2. rewrite Ej. auto. }
      assert (SKIP : keepS (fst fc) = false -> forall i s, nth_error ss i = Some s -> SI (S j) i s).
      { intros X i s Ei. unfold SI. rewrite KS, X. cbn [andb]. rewrite app_nil_r. apply HI; auto. }
      assert (ADD : keepS (fst fc) = true -> forall h, rep_ok T g fx (vs sp) (inl j) (inner, h) -> exists ss0,
         (s <- rd ss sp ;; s <- sub_addFactor T s h inner;; ss <- wr ss sp s ;; Ret (ss, cst T OP g fx constS j)) = Ret (ss0, cst T OP g fx constS j) /\
         length ss0 = K /\ forall i s, nth_error ss0 i = Some s -> SI (S j) i s).
      { intros KE h Hh. destruct (nth_error ss sp) as [s|] eqn:Es; [|apply nth_error_None in Es; lia]. rewrite (rd_Ret _ _ _ _ Es). cbn [bind].
        destruct (HI sp s Es) as [I1 I2].
        destruct (rep_add T g fx (vs sp) (inl j) inner h s _ Hh (proj1 (proj2 SR)) I1 I2) as (s' & E1 & E2 & E3). rewrite E1. cbn [bind]. rewrite wr_Ret by lia. cbn [bind].
        eexists. split; [reflexivity|]. split; [rewrite length_upd; auto|]. intros i si Ei. unfold SI. rewrite KS, KE. cbn [andb]. destruct (Nat.eq_dec sp i) as [<-|N].
        - rewrite nth_error_upd_eq in Ei by lia. injection Ei as <-. rewrite Nat.eqb_refl, map_app. auto.
        - rewrite nth_error_upd_neq in Ei by auto. rewrite (proj2 (Nat.eqb_neq sp i) N), app_nil_r. apply HI; auto. }
      pose proof (rep_view T g fx (vs sp) j fc inner fixed Ej SR) as RV.
      assert (EK : keepS (fst fc) = match md with FIX => negb (all_fixed fx (fst fc)) | DROP => all_free fx (fst fc) end) by reflexivity.
      assert (EC : constS (fst fc) = match md with FIX => all_fixed fx (fst fc) | DROP => false end) by reflexivity.
      rewrite EC. destruct md.
      + destruct (all_fixed fx (fst fc)) eqn:AX.
        * rewrite (const_ok T OP g W fx m FB j fc _ Ej AX). cbn [bind]. exists ss. split; auto. 
        * destruct (all_free fx (fst fc)) eqn:AF.
          -- destruct (ADD EK _ (RV eq_refl)) as (s0 & E1 & E2). rewrite E1. cbn [bind]. exists s0. auto.
          -- destruct (rep_fix T g fx (vs sp) j fc inner fixed Ej SR) as (v & EV & RF). rewrite EV. cbn [bind]. destruct (ADD EK _ RF) as (s0 & E1 & E2).
             rewrite E1. cbn [bind]. exists s0. auto.
      + destruct (all_free fx (fst fc)) eqn:AF.
        * destruct (ADD EK _ (RV eq_refl)) as (s0 & E1 & E2). rewrite E1. cbn [bind]. exists s0. auto.
        * exists ss. auto. }
  apply (G nf (le_n _)).
Qed.
End B.

(** What built sub-models are. *)
Definition subs_ok (fx : fixes) (v2s : list nat) (ss : list (subgm T)) : Prop :=
  comps_ok fx v2s (length ss) /\
  exists rs : nat -> list (nat + T),
    (forall i s, nth_error ss i = Some s -> s_labels s = labels_of g (vars_of fx v2s i) /\ Forall2 (rep_ok T g fx (vars_of fx v2s i)) (rs i) (s_factors s)) /\
    (forall i z, labeling g z -> fin (rfold T OP g (rs i) z)) /\
    forall z, labeling g z -> extends fx z -> big T OP (seq 0 (length ss)) (fun i => rfold T OP g (rs i) z) = total OP (target g md fx) z.

Lemma sub_models_ok : forall fx m v2s k, fixed_by T g fx m -> a_tent m = repeat false nf -> length v2s = n ->
  (forall v, fr T g fx v -> nth v v2s 0 < k) -> (forall u v, fr T g fx u -> fr T g fx v -> (nth u v2s 0 = nth v v2s 0 <-> joined g fx u v)) ->
  (forall i, i < k -> exists v, fr T g fx v /\ nth v v2s 0 = i) ->
  exists ss, sub_models T OP g md m v2s k = Ret (mkMan true (a_fix m) (a_lab m) (a_tent m) (a_mgm m) ss v2s) /\ subs_ok fx v2s ss.
Proof.
  intros fx m v2s k FB HT LV C1 C2 C3. unfold sub_models. fold n. fold nf.
  cbn [a_fix a_lab a_tent a_mgm a_subs a_v2s].
  set (m' := mkMan true (a_fix m) (a_lab m) (a_tent m) (a_mgm m) (a_subs m) v2s).
  assert (FB' : fixed_by T g fx m') by (destruct FB; constructor; auto).
  set (K := if k =? 0 then 1 else k).
  assert (CO : comps_ok fx v2s K).
  { unfold K. constructor.
    - destruct (Nat.eqb_spec k 0); lia.
    - intros v Hv Fv. specialize (C1 v (conj Hv Fv)). destruct (Nat.eqb_spec k 0); lia.
    - intros u v Hu Fu Hv Fv. apply C2; split; auto.
    - intros i Hi. destruct (Nat.eqb_spec k 0) as [->|N].
      + right. split; auto. destruct (free_vars fx) as [|v l] eqn:E; auto. exfalso. assert (X : In v (free_vars fx)) by (rewrite E; left; auto). apply free_vars_In in X. rewrite (fb_len _ _ _ _ FB) in X. specialize (C1 v X). lia.
      + left. destruct (C3 i Hi) as (v & [Hv Fv] & Ev). exists v. auto. }
  destruct (svarMap_ok fx m' FB' K CO) as (vm & nvs & E1 & L & EN & HM). change (a_v2s m') with v2s in *. change (a_fix m') with (a_fix m) in *. rewrite E1. cbn [bind].
  rewrite EN. pose proof (sshape_ok fx m' FB' K CO vm L HM) as E2. change (a_v2s m') with v2s in *. change (a_fix m') with (a_fix m) in *. rewrite E2. cbn [bind].
  destruct (subfactors_ok fx m' FB' HT K CO vm L HM) as (ss & E3 & LS & HI). change (a_v2s m') with v2s in *. rewrite E3. cbn [bind].
  assert (CM : forall i z, labeling g z -> rfold T OP g (map inl (ksub fx m' nf i)) z = big T OP (ksub fx m' nf i) (fun q => val T OP g q z)) by (intros; apply (rfold_big T OP fin OL g W FG); auto).
  assert (FM : forall i z, labeling g z -> fin (rfold T OP g (map inl (ksub fx m' nf i)) z)).
  { intros i z Hz. rewrite CM by auto. apply (big_fin T OP fin OL). intros; apply (fin_val T OP fin OL g W FG); auto. }
  assert (BK : forall z, labeling g z -> big T OP (seq 0 K) (fun i => rfold T OP g (map inl (ksub fx m' nf i)) z) = big T OP (filter (visP T g (keepS fx)) (seq 0 nf)) (fun q => val T OP g q z)).
  { intros z Hz. pose proof (big_buckets T OP fin OL (fun q => match nth_error (v_factors g) q with Some fc => last_sub T fx m' (fst fc) | None => 0 end) K (fun q => val T OP g q z) (filter (visP T g (keepS fx)) (seq 0 nf))) as BB.
    rewrite <- BB.
    - apply big_ext. intros i _. rewrite CM by auto. unfold ksub. rewrite filter_filter. f_equal. apply filter_ext. intros q. unfold visP. destruct (nth_error (v_factors g) q); auto.
    - intros q _. split; [|apply (fin_val T OP fin OL g W FG); auto]. destruct (nth_error (v_factors g) q) as [fc|] eqn:Eq; [|apply CO]. eapply last_sub_lt; eauto. }
  pose proof (semantics T OP fin OL g W FG md fx m' FB' (keepS fx) (constS fx) (KDS fx) (KFS fx)) as SEM.
  destruct md eqn:EM.
  - destruct (nth_error ss 0) as [s|] eqn:Es; [|apply nth_error_None in Es; destruct CO; lia]. rewrite (rd_Ret _ _ _ _ Es). cbn [bind].
    destruct (HI 0 s Es) as [I1 I2]. unfold add_const.
    destruct (rep_add T g fx _ (inr (cst T OP g fx (constS fx) nf)) [] _ s _ (const_rep T g fx _ _) (SSorted_nil _) I1 I2) as (s' & E4 & E5 & E6). rewrite E4. cbn [bind].
    rewrite wr_Ret by (destruct CO; lia). cbn [bind]. eexists. split; [reflexivity|]. split; [rewrite length_upd, LS; auto|].
    assert (FC : fin (cst T OP g fx (constS fx) nf)) by (apply (cst_fin T OP fin OL g W FG fx m' FB')).
    exists (fun i => map inl (ksub fx m' nf i) ++ if i =? 0 then [inr (cst T OP g fx (constS fx) nf)] else []). split; [|split].
    + intros i si Ei. destruct (Nat.eq_dec i 0) as [->|N].
      * rewrite nth_error_upd_eq in Ei by (destruct CO; lia). injection Ei as <-. cbn [Nat.eqb]. auto.
      * rewrite nth_error_upd_neq in Ei by auto. rewrite (proj2 (Nat.eqb_neq i 0) N), app_nil_r. apply HI; auto.
    + intros i z Hz. destruct (i =? 0); [rewrite rfold_snoc; cbn [rval]; apply (ol_op _ _ OL); auto|rewrite app_nil_r; auto].
    + intros z Hz Hx. rewrite length_upd, LS, EM, <- (SEM z Hz Hx), <- BK by auto.
      rewrite <- (big_bump T OP fin OL (seq 0 K) 0); auto; [|apply seq_NoDup|apply in_seq; destruct CO; lia].
      apply big_ext. intros i _. destruct (i =? 0); [rewrite rfold_snoc; auto|rewrite app_nil_r; auto].
  - cbn [bind]. eexists. split; [reflexivity|]. split; [rewrite LS; auto|].
    exists (fun i => map inl (ksub fx m' nf i)). split; [exact HI|]. split; auto.
    intros z Hz Hx. rewrite LS, EM, <- (SEM z Hz Hx). apply BK. auto.
Qed.

Lemma buildsub_ok : forall fx m, fixed_by T g fx m -> a_tent m = repeat false nf ->
  exists ss v2s, buildModifiedSubModels T OP g md m = Ret (mkMan true (a_fix m) (a_lab m) (a_tent m) (a_mgm m) ss v2s) /\ length v2s = n /\ subs_ok fx v2s ss.
Proof.
  intros fx m FB HT. unfold buildModifiedSubModels.
  destruct (components_ok T g W fx (fb_len _ _ _ _ FB) m (fb_fix _ _ _ _ FB) (fb_v2s _ _ _ _ FB)) as (v2s & k & EC & LV & C1 & C2 & C3). rewrite EC. cbn [bind].
  destruct (sub_models_ok fx m v2s k FB HT LV C1 C2 C3) as (ss & E & S). exists ss, v2s. auto.
Qed.

(** ** Translating labelings back *)
Lemma labeling_intro : forall fx z, fixes_ok T g fx -> length fx = n -> extends fx z -> (forall v, v < n -> is_free fx v = true -> nth v z 0 < nth v (v_labels g) 0) -> labeling g z.
Proof.
  intros fx z FO LF HX H. pose proof (extends_length _ _ HX) as L. apply Forall2_nth_intro; [unfold n in *; lia|]. intros v Hv. destruct (is_free fx v) eqn:F; [apply H; auto; unfold n in *; lia|].
  destruct (not_free _ _ F) as (l & El). rewrite (extends_nth _ _ _ _ HX El). apply FO. auto.
Qed.

Lemma m2o_ok : forall fx m ml ol, fixed_by T g fx m -> a_locked m = true -> s_labels (a_mgm m) = labels_of g (free_vars fx) -> in_shape (labels_of g (free_vars fx)) ml ->
  exists z, modifiedState2OriginalState T g m ml ol = Ret z /\ restr fx (free_vars fx) ml z /\ labeling g z.
Proof.
  intros fx m ml ol FB LK LB HY. pose proof (in_shape_length _ _ HY) as LM. rewrite labels_of_length in LM. unfold modifiedState2OriginalState. fold n.
  rewrite LK, LB, labels_of_length, LM, Nat.eqb_refl. cbn [andb].
  set (step := fun (p : list nat * nat) v => b <- rd (a_fix m) v ;; if b : bool then l <- rd (a_lab m) v ;; ol <- wr (fst p) v l ;; Ret (ol, snd p)
                          else l <- rd ml (snd p) ;; ol <- wr (fst p) v l ;; Ret (ol, S (snd p))).
  set (o0 := firstn n ol ++ repeat 0 (n - length ol)).
  assert (L0 : length o0 = n) by (unfold o0; rewrite app_length, firstn_length, repeat_length; lia).
  pose proof (fb_len _ _ _ _ FB) as LF.
  assert (EFV : free_vars fx = filter (is_free fx) (seq 0 n)) by (apply (fv_n T g fx m FB)).
  assert (G : forall j, j <= n -> exists o, foldM step (seq 0 j) (o0, 0) = Ret (o, length (filter (is_free fx) (seq 0 j))) /\ length o = n /\
     (forall v l, v < j -> nth v fx None = Some l -> nth v o 0 = l) /\ at_vars o (filter (is_free fx) (seq 0 j)) = firstn (length (filter (is_free fx) (seq 0 j))) ml).
  { induction j as [|j IH]; intros Hj.
    - exists o0. split; auto. split; auto. split; [lia|]. auto.
    - destruct IH as (o & E & L & H1 & H2); [lia|]. rewrite seq_S, foldM_app, E. cbn [bind foldM]. rewrite Nat.add_0_l. unfold step at 1.
      rewrite (rd_f T g fx m FB j Hj). cbn [bind fst snd]. rewrite filter_app. cbn [filter]. set (F := filter (is_free fx) (seq 0 j)) in *.
      assert (AT : forall l, at_vars (upd o j l) F = at_vars o F).
      { intros l. apply at_vars_ext. intros v Hv. unfold F in Hv. apply filter_In in Hv. destruct Hv as [Hv _]. apply in_seq in Hv. rewrite nth_upd_neq; auto. lia. }
      destruct (is_free fx j) eqn:Fj; cbn [negb].
      + assert (HI : nth_error (free_vars fx) (length F) = Some j).
        { rewrite EFV. apply (filter_prefix _ (S j) n); [lia|]. rewrite filter_S, Fj. apply nth_error_snoc_last. }
        assert (HL : length F < length ml) by (rewrite LM; apply nth_error_Some; congruence).
        rewrite (rd_nth _ ml _ 0) by auto. cbn [bind]. rewrite wr_Ret by lia. cbn [bind]. eexists. split; [rewrite app_length, Nat.add_1_r; reflexivity|]. split; [rewrite length_upd; auto|]. split.
        * intros v l Hv Ev. destruct (Nat.eq_dec v j) as [->|N]; [unfold is_free in Fj; rewrite Ev in Fj; discriminate|]. rewrite nth_upd_neq by auto. apply H1; auto. lia.
        * unfold at_vars. rewrite map_app. fold (at_vars (upd o j (nth (length F) ml 0)) F). rewrite AT, H2. cbn [map]. rewrite nth_upd_eq by lia.
          rewrite app_length, Nat.add_1_r. symmetry. apply firstn_snoc. apply nth_error_nth'. auto.
      + destruct (not_free _ _ Fj) as (l & El). rewrite (rd_nth _ (a_lab m) j 0) by (rewrite (fb_lablen _ _ _ _ FB); auto). cbn [bind].
        rewrite (fb_lab _ _ _ _ FB _ _ El). rewrite wr_Ret by lia. cbn [bind]. rewrite app_nil_r. eexists. split; [reflexivity|]. split; [rewrite length_upd; auto|]. split.
        * intros v l' Hv Ev. destruct (Nat.eq_dec v j) as [->|N]; [rewrite nth_upd_eq by lia; congruence|]. rewrite nth_upd_neq by auto. apply H1; auto. lia.
        * rewrite AT. auto. }
  destruct (G n (le_n _)) as (z & E & L & H1 & H2). rewrite E. cbn [bind]. exists z. split; auto. rewrite <- EFV in H2. rewrite <- LM, firstn_all in H2.
  assert (HX : extends fx z).
  { apply extends_intro; [lia|]. intros v l Ev. apply H1; auto. unfold n. rewrite <- LF. destruct (le_lt_dec (length fx) v) as [X|X]; auto. rewrite nth_overflow in Ev by auto. discriminate. }
  split; [split; auto|]. apply (labeling_intro fx); auto; [apply FB|].
  intros v Hv Fv. assert (Iv : In v (free_vars fx)) by (apply free_vars_In; split; auto; lia). apply In_nth_error in Iv. destruct Iv as [p Hp].
  assert (HPL : p < length (free_vars fx)) by (apply nth_error_Some; congruence).
  pose proof (Forall2_nth_lt _ _ p HY ltac:(rewrite labels_of_length; auto)) as X. unfold labels_of in X. rewrite nth_map_in in X by auto. rewrite (nth_error_nth _ _ 0 Hp) in X.
  rewrite <- H2 in X. unfold at_vars in X. rewrite nth_map_in in X by auto. rewrite (nth_error_nth _ _ 0 Hp) in X. auto.
Qed.

Lemma s2o_ok : forall fx m sc conf, fixed_by T g fx m -> comps_ok fx (a_v2s m) (length (a_subs m)) -> length sc = length (a_subs m) ->
  (forall i y, nth_error sc i = Some y -> in_shape (labels_of g (vars_of fx (a_v2s m) i)) y) ->
  exists z, modifiedSubStates2OriginalState T g m sc conf = Ret z /\ extends fx z /\ labeling g z /\ forall i y, nth_error sc i = Some y -> at_vars z (vars_of fx (a_v2s m) i) = y.
Proof.
  intros fx m sc conf FB CO LSC HY. unfold modifiedSubStates2OriginalState. fold n. set (v2s := a_v2s m) in *. set (K := length (a_subs m)) in *.
  set (step := fun (p : list nat * list nat) v => b <- rd (a_fix m) v ;; if b : bool then l <- rd (a_lab m) v ;; c <- wr (fst p) v l ;; Ret (c, snd p)
                          else sp <- rd v2s v ;; s <- rd sc sp ;; i <- rd (snd p) sp ;; l <- rd s i ;; c <- wr (fst p) v l ;; cnt <- wr (snd p) sp (S i) ;; Ret (c, cnt)).
  set (o0 := firstn n conf ++ repeat 0 (n - length conf)).
  assert (L0 : length o0 = n) by (unfold o0; rewrite app_length, firstn_length, repeat_length; lia).
  pose proof (fb_len _ _ _ _ FB) as LF.
  assert (LY : forall i, i < K -> length (nth i sc []) = length (vars_of fx v2s i)).
  { intros i Hi. destruct (nth_error sc i) as [y|] eqn:E; [|apply nth_error_None in E; lia]. rewrite (nth_error_nth _ _ [] E). specialize (HY i y E). apply in_shape_length in HY. rewrite labels_of_length in HY. auto. }
  assert (G : forall j, j <= n -> exists o cnt, foldM step (seq 0 j) (o0, repeat 0 K) = Ret (o, cnt) /\ length o = n /\ length cnt = K /\
     (forall i, i < K -> nth i cnt 0 = length (vars_to fx v2s j i)) /\
     (forall v l, v < j -> nth v fx None = Some l -> nth v o 0 = l) /\ forall i, i < K -> at_vars o (vars_to fx v2s j i) = firstn (length (vars_to fx v2s j i)) (nth i sc [])).
  { induction j as [|j IH]; intros Hj.
    - exists o0, (repeat 0 K). split; auto. split; auto. split; [apply repeat_length|]. split; [intros; apply nth_repeat|]. split; [lia|]. auto.
    - destruct IH as (o & cnt & E & L & LC & HC & H1 & H2); [lia|]. rewrite seq_S, foldM_app, E. cbn [bind foldM]. rewrite Nat.add_0_l. unfold step at 1.
      rewrite (rd_f T g fx m FB j Hj). cbn [bind fst snd].
      assert (AT : forall l i, at_vars (upd o j l) (vars_to fx v2s j i) = at_vars o (vars_to fx v2s j i)).
      { intros l i. apply at_vars_ext. intros v Hv. unfold vars_to in Hv. apply filter_In in Hv. destruct Hv as [Hv _]. apply in_seq in Hv. rewrite nth_upd_neq; auto. lia. }
      destruct (is_free fx j) eqn:Fj; cbn [negb].
      + rewrite (rd_nth _ v2s j 0) by (unfold v2s; rewrite (fb_v2s _ _ _ _ FB); auto). cbn [bind]. assert (HK : nth j v2s 0 < K) by (apply CO; auto). set (sp := nth j v2s 0) in *.
        rewrite (rd_nth _ sc sp []) by lia. cbn [bind]. rewrite (rd_nth _ cnt sp 0) by lia. cbn [bind]. rewrite HC by auto.
        assert (HI : nth_error (vars_of fx v2s sp) (length (vars_to fx v2s j sp)) = Some j).
        { rewrite vars_of_to by auto. unfold vars_to at 1. apply (filter_prefix _ (S j) n); [lia|]. fold (vars_to fx v2s (S j) sp). rewrite vars_to_S, Fj. fold sp. rewrite Nat.eqb_refl. apply nth_error_snoc_last. }
        assert (HL : length (vars_to fx v2s j sp) < length (nth sp sc [])) by (rewrite LY by auto; apply nth_error_Some; congruence).
        rewrite (rd_nth _ (nth sp sc []) _ 0) by auto. cbn [bind]. rewrite wr_Ret by lia. cbn [bind]. rewrite wr_Ret by lia. cbn [bind]. do 2 eexists. split; [reflexivity|].
        split; [rewrite length_upd; auto|]. split; [rewrite length_upd; auto|]. split; [|split].
        * intros i Hi. rewrite vars_to_S, Fj. cbn [andb]. fold sp. rewrite app_length. destruct (Nat.eqb_spec sp i) as [<-|N].
          -- rewrite nth_upd_eq by lia. cbn. lia.
          -- rewrite nth_upd_neq by auto. rewrite HC by auto. cbn. lia.
        * intros v l Hv Ev. destruct (Nat.eq_dec v j) as [->|N]; [unfold is_free in Fj; rewrite Ev in Fj; discriminate|]. rewrite nth_upd_neq by auto. apply H1; auto. lia.
        * intros i Hi. rewrite vars_to_S, Fj. cbn [andb]. fold sp. unfold at_vars. rewrite map_app. fold (at_vars (upd o j (nth (length (vars_to fx v2s j sp)) (nth sp sc []) 0)) (vars_to fx v2s j i)).
          rewrite AT, H2 by auto. destruct (Nat.eqb_spec sp i) as [<-|N].
          -- cbn [map]. rewrite nth_upd_eq by lia. rewrite app_length, Nat.add_1_r. symmetry. apply firstn_snoc. apply nth_error_nth'. auto.
          -- cbn [map]. rewrite !app_nil_r. auto.
      + destruct (not_free _ _ Fj) as (l & El). rewrite (rd_nth _ (a_lab m) j 0) by (rewrite (fb_lablen _ _ _ _ FB); auto). cbn [bind].
        rewrite (fb_lab _ _ _ _ FB _ _ El). rewrite wr_Ret by lia. cbn [bind]. do 2 eexists. split; [reflexivity|]. split; [rewrite length_upd; auto|]. split; auto. split; [|split].
        * intros i Hi. rewrite vars_to_S, Fj. cbn [andb]. rewrite app_nil_r. auto.
        * intros v l' Hv Ev. destruct (Nat.eq_dec v j) as [->|N]; [rewrite nth_upd_eq by lia; congruence|]. rewrite nth_upd_neq by auto. apply H1; auto. lia.
        * intros i Hi. rewrite vars_to_S, Fj. cbn [andb]. rewrite app_nil_r, AT. auto. }
  destruct (G n (le_n _)) as (z & cnt & E & L & LC & HC & H1 & H2). rewrite E. cbn [bind]. exists z. split; auto.
  assert (HX : extends fx z).
  { apply extends_intro; [lia|]. intros v l Ev. apply H1; auto. unfold n. rewrite <- LF. destruct (le_lt_dec (length fx) v) as [X|X]; auto. rewrite nth_overflow in Ev by auto. discriminate. }
  assert (AV : forall i y, nth_error sc i = Some y -> at_vars z (vars_of fx v2s i) = y).
  { intros i y Ei. assert (Hi : i < K) by (rewrite <- LSC; apply nth_error_Some; congruence). rewrite vars_of_to by auto. rewrite H2 by auto. rewrite <- vars_of_to by auto. rewrite <- LY by auto.
    rewrite (nth_error_nth _ _ [] Ei). apply firstn_all. }
  split; auto. split; auto. apply (labeling_intro fx); auto; [apply FB|].
  intros v Hv Fv. assert (HK : nth v v2s 0 < K) by (apply CO; auto). set (sp := nth v v2s 0) in *. destruct (nth_error sc sp) as [y|] eqn:Ey; [|apply nth_error_None in Ey; lia].
  assert (Iv : In v (vars_of fx v2s sp)) by (apply vars_of_In; split; auto; split; auto; lia). apply In_nth_error in Iv. destruct Iv as [p Hp].
  assert (HPL : p < length (vars_of fx v2s sp)) by (apply nth_error_Some; congruence).
  pose proof (Forall2_nth_lt _ _ p (HY sp y Ey) ltac:(rewrite labels_of_length; auto)) as X. unfold labels_of in X. rewrite nth_map_in in X by auto. rewrite (nth_error_nth _ _ 0 Hp) in X.
  rewrite <- (AV sp y Ey) in X. unfold at_vars in X. rewrite nth_map_in in X by auto. rewrite (nth_error_nth _ _ 0 Hp) in X. auto.
Qed.
End S.
