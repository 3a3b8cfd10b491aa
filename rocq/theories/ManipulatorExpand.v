(** Proofs for C20: the connected components of the free variables. *)
From Verif Require Import Base Values GmView GmViewSpec ShapeSpec ShapeProofs GmProofs GmViewProofs IcmProofs SubmodelModel ManipulatorModel ManipulatorSpec ManipulatorRep.
From Coq Require Import Sorted Relation_Operators Operators_Properties.
#[local] Arguments nth_error : simpl never.

Lemma rt1n_trans : forall A (R : A -> A -> Prop) a b c, clos_refl_trans_1n A R a b -> clos_refl_trans_1n A R b c -> clos_refl_trans_1n A R a c.
Proof. intros A R a b c H1 H2. apply clos_rt_rt1n. eapply rt_trans; apply clos_rt1n_rt; eassumption. Qed.
Lemma rt1n_mono : forall A (R R' : A -> A -> Prop), (forall a b, R a b -> R' a b) -> forall a b, clos_refl_trans_1n A R a b -> clos_refl_trans_1n A R' a b.
Proof. intros A R R' H a b X. induction X; [apply rt1n_refl|]. eapply Relation_Operators.rt1n_trans; eauto. Qed.

Lemma filter_length_le' : forall A (p : A -> bool) l, length (filter p l) <= length l.
Proof. intros A p l. induction l as [|a l IH]; cbn; [lia|]. destruct (p a); cbn; lia. Qed.

Section S.
Variable T : Type.
Variable g : gmv T.
Hypothesis W : wf_gmv g.
Let n := length (v_labels g).

Lemma beside_adj : forall u v, beside g u v <-> exists k fc, In k (v_adj T g u) /\ nth_error (v_factors g) k = Some fc /\ In v (fst fc).
Proof.
  intros u v. split.
  - intros (fc & Hfc & Hu & Hv). apply In_nth_error in Hfc. destruct Hfc as [k Ek]. exists k, fc. split; auto. apply v_adj_spec. eauto.
  - intros (k & fc & Hk & Ek & Hv). apply v_adj_spec in Hk. destruct Hk as (fc' & Ek' & Hu). rewrite Ek in Ek'. injection Ek' as <-. exists fc. split; auto. eapply nth_error_In; eauto.
Qed.
Lemma beside_sym : forall u v, beside g u v -> beside g v u.
Proof. intros u v (fc & H & A & B). exists fc. auto. Qed.
Lemma beside_lt : forall u v, beside g u v -> v < n.
Proof.
  intros u v (fc & H & A & B). apply In_nth_error in H. destruct H as [k Ek]. destruct (wf_nth _ _ _ _ W Ek) as [_ HB]. rewrite Forall_forall in HB. auto.
Qed.

Definition cl (c : list bool) (v : nat) : bool := nth v c false.
Definition unc (c : list bool) : nat := length (filter (fun v => negb (cl c v)) (seq 0 n)).
Definition stepR (c : list bool) (a b : nat) : Prop := beside g a b /\ b < n /\ cl c b = false.

Record prog (ccn : nat) (S : nat -> Prop) (st st' : list bool * list nat) : Prop := {
  pg_l1 : length (fst st') = n;
  pg_l2 : length (snd st') = n;
  pg_mono : forall v, cl (fst st) v = true -> cl (fst st') v = true /\ nth v (snd st') 0 = nth v (snd st) 0;
  pg_new : forall v, v < n -> cl (fst st) v = false -> cl (fst st') v = true ->
    nth v (snd st') 0 = ccn /\ exists s, S s /\ cl (fst st) s = false /\ clos_refl_trans_1n nat (stepR (fst st)) s v;
  pg_done : forall u w, u < n -> cl (fst st) u = false -> cl (fst st') u = true -> beside g u w -> cl (fst st') w = true }.

Lemma prog_refl : forall ccn S st, length (fst st) = n -> length (snd st) = n -> prog ccn S st st.
Proof. intros ccn S st H1 H2. constructor; auto; congruence. Qed.
Lemma prog_trans : forall ccn (S1 S2 : nat -> Prop) a b c, prog ccn S1 a b -> prog ccn S2 b c -> (forall s, S2 s -> S1 s) -> prog ccn S1 a c.
Proof.
  intros ccn S1 S2 a b c [A1 A2 AM AN AD] [B1 B2 BM BN BD] HS. constructor; auto.
  - intros v Hv. destruct (AM v Hv) as [X1 X2]. destruct (BM v X1) as [Y1 Y2]. split; congruence.
  - intros v Hv X Y. destruct (cl (fst b) v) eqn:E.
    + destruct (BM v E) as [_ Z]. rewrite Z. apply AN; auto.
    + destruct (BN v Hv E Y) as [Z (s & Hs & Es & P)]. split; auto. exists s. split; auto.
      assert (NC : forall q, cl (fst b) q = false -> cl (fst a) q = false).
      { intros q Hq. destruct (cl (fst a) q) eqn:F; auto. destruct (AM q F) as [F' _]. congruence. }
      split; [auto|]. eapply rt1n_mono; [|exact P]. intros p q (R1 & R2 & R3). split; auto.
  - intros u w Hu X Y BS. destruct (cl (fst b) u) eqn:E.
    + apply BM. apply (AD u w); auto.
    + apply (BD u w); auto.
Qed.
Lemma prog_weaken : forall ccn (S1 S2 : nat -> Prop) a b, prog ccn S1 a b -> (forall s, S1 s -> S2 s) -> prog ccn S2 a b.
Proof.
  intros ccn S1 S2 a b [A1 A2 AM AN AD] HS. constructor; auto. intros v Hv X Y. destruct (AN v Hv X Y) as [Z (s & Hs & P)]. split; auto. exists s. auto.
Qed.
Lemma prog_unc : forall ccn S a b, prog ccn S a b -> unc (fst b) <= unc (fst a).
Proof.
  intros ccn S a b [A1 A2 AM AN AD]. unfold unc. apply NoDup_incl_length; [apply NoDup_filter, seq_NoDup|].
  intros v Hv. apply filter_In in Hv. destruct Hv as [Hv X]. apply filter_In. split; auto. destruct (cl (fst a) v) eqn:E; auto. destruct (AM v E) as [F _]. rewrite F in X. discriminate.
Qed.
Lemma unc_mark : forall c v, length c = n -> v < n -> cl c v = false -> unc (upd c v true) < unc c.
Proof.
  intros c v L Hv X. unfold unc. set (l' := filter (fun u => negb (cl (upd c v true) u)) (seq 0 n)).
  change (S (length l') <= length (filter (fun u => negb (cl c u)) (seq 0 n))). change (S (length l')) with (length (v :: l')). apply NoDup_incl_length.
  - apply NoDup_cons; [|apply NoDup_filter, seq_NoDup]. intros Y. apply filter_In in Y. destruct Y as [_ Y]. unfold cl in Y. rewrite nth_upd_eq in Y by lia. discriminate.
  - intros u [<-|Hu]; apply filter_In; [split; [apply in_seq; lia|rewrite X; auto]|]. apply filter_In in Hu. destruct Hu as [Hu Y]. split; auto.
    destruct (Nat.eq_dec u v) as [->|N]; [rewrite X; auto|]. unfold cl in *. rewrite nth_upd_neq in Y by auto. auto.
Qed.

Section Fuel.
Variable fuel ccn : nat.
Hypothesis IH : forall var st, length (fst st) = n -> length (snd st) = n -> var < n -> unc (fst st) < fuel ->
  exists st', expand T g fuel ccn var st = Ret st' /\ prog ccn (eq var) st st' /\ cl (fst st') var = true.

Lemma expand_list : forall vs st, Forall (fun v => v < n) vs -> length (fst st) = n -> length (snd st) = n -> unc (fst st) < fuel ->
  exists st', foldM (fun st v => expand T g fuel ccn v st) vs st = Ret st' /\ prog ccn (fun s => In s vs) st st' /\ forall v, In v vs -> cl (fst st') v = true.
Proof.
  induction vs as [|v vs IHv]; intros st HB L1 L2 U.
  - exists st. split; auto. split; [apply prog_refl; auto|intros v []].
  - apply Forall_cons_iff in HB. destruct HB as [Hv HB]. cbn [foldM]. destruct (IH v st L1 L2 Hv U) as (s1 & E1 & P1 & C1). rewrite E1. cbn [bind].
    destruct (IHv s1 HB (pg_l1 _ _ _ _ P1) (pg_l2 _ _ _ _ P1)) as (s2 & E2 & P2 & C2). { pose proof (prog_unc _ _ _ _ P1). lia. }
    exists s2. split; auto. split.
    + apply (prog_trans ccn _ (fun s => In s vs) st s1 s2); auto; [|intros; right; auto]. apply (prog_weaken _ _ _ _ _ P1). intros s <-. left. auto.
    + intros u [<-|Hu]; auto. apply (pg_mono _ _ _ _ P2). auto.
Qed.
Definition near (ks : list nat) (s : nat) : Prop := exists k fc, In k ks /\ nth_error (v_factors g) k = Some fc /\ In s (fst fc).
Lemma expand_factors : forall ks st, Forall (fun k => k < length (v_factors g)) ks -> length (fst st) = n -> length (snd st) = n -> unc (fst st) < fuel ->
  exists st', foldM (fun st k => fc <- rd (v_factors g) k ;; foldM (fun st v => expand T g fuel ccn v st) (fst fc) st) ks st = Ret st' /\
    prog ccn (near ks) st st' /\ forall v, near ks v -> cl (fst st') v = true.
Proof.
  induction ks as [|k ks IHk]; intros st HB L1 L2 U.
  - exists st. split; auto. split; [apply prog_refl; auto|intros v (k & fc & [] & _)].
  - apply Forall_cons_iff in HB. destruct HB as [Hk HB]. cbn [foldM]. destruct (nth_error (v_factors g) k) as [fc|] eqn:Ek; [|apply nth_error_None in Ek; lia].
    rewrite (rd_Ret _ _ _ _ Ek). cbn [bind]. destruct (wf_nth _ _ _ _ W Ek) as [_ HV].
    destruct (expand_list (fst fc) st HV L1 L2 U) as (s1 & E1 & P1 & C1). rewrite E1. cbn [bind].
    destruct (IHk s1 HB (pg_l1 _ _ _ _ P1) (pg_l2 _ _ _ _ P1)) as (s2 & E2 & P2 & C2). { pose proof (prog_unc _ _ _ _ P1). lia. }
    exists s2. split; auto. split.
    + apply (prog_trans ccn _ (near ks) st s1 s2); auto.
      * apply (prog_weaken _ _ _ _ _ P1). intros s Hs. exists k, fc. split; [left|]; auto.
      * intros s (q & fq & Hq & X). exists q, fq. split; [right|]; auto.
    + intros v (q & fq & [<-|Hq] & Eq & Hv).
      * rewrite Ek in Eq. injection Eq as <-. apply (pg_mono _ _ _ _ P2). auto.
      * apply C2. exists q, fq. auto.
Qed.
End Fuel.

Lemma expand_ok : forall fuel ccn var st, length (fst st) = n -> length (snd st) = n -> var < n -> unc (fst st) < fuel ->
  exists st', expand T g fuel ccn var st = Ret st' /\ prog ccn (eq var) st st' /\ cl (fst st') var = true.
Proof.
  induction fuel as [|fuel IH]; intros ccn var [c s] L1 L2 Hv U; [lia|]. cbn [fst snd] in *. cbn [expand fst snd].
  rewrite (rd_nth _ c var false) by lia. cbn [bind]. destruct (nth var c false) eqn:E.
  { exists (c, s). split; auto. split; [apply prog_refl; auto|auto]. }
  rewrite wr_Ret by lia. cbn [bind]. rewrite wr_Ret by lia. cbn [bind].
  pose proof (unc_mark c var L1 Hv E) as UM.
  destruct (expand_factors fuel ccn (IH ccn) (v_adj T g var) (upd c var true, upd s var ccn)) as (st' & E' & P & C); cbn [fst snd]; try (rewrite length_upd; auto); [|lia|].
  { apply Forall_forall. intros k Hk. apply v_adj_spec in Hk. destruct Hk as (fc & Ek & _). apply nth_error_Some. congruence. }
  rewrite E'. exists st'. split; auto. destruct P as [A1 A2 AM AN AD]. cbn [fst snd] in *.
  assert (NB : forall w, near (v_adj T g var) w <-> beside g var w) by (intros w; rewrite beside_adj; unfold near; tauto).
  assert (CV : cl (fst st') var = true) by (apply AM; unfold cl; rewrite nth_upd_eq by lia; auto).
  split; auto. constructor; cbn [fst snd]; auto.
  - intros v Hc. destruct (Nat.eq_dec v var) as [->|N]; [unfold cl in Hc; congruence|]. destruct (AM v) as [B1 B2]; [unfold cl; rewrite nth_upd_neq; auto|].
    split; auto. rewrite B2, nth_upd_neq; auto.
  - intros v Hvn X Y. destruct (Nat.eq_dec v var) as [->|N].
    + destruct (AM var) as [_ B2]; [unfold cl; rewrite nth_upd_eq by lia; auto|]. rewrite B2, nth_upd_eq by lia. split; auto. exists var. split; auto. split; auto. apply rt1n_refl.
    + destruct (AN v Hvn) as [B1 (q & Hq & Cq & P)]; auto. { unfold cl. rewrite nth_upd_neq; auto. }
      split; auto. exists var. split; auto. split; auto. apply NB in Hq.
      assert (NC : forall w, cl (upd c var true) w = false -> cl c w = false).
      { intros w. unfold cl. destruct (Nat.eq_dec w var) as [->|Nw]; [rewrite nth_upd_eq by lia; discriminate|]. rewrite nth_upd_neq; auto. }
      eapply Relation_Operators.rt1n_trans with (y := q); [split; [auto|]; split; [eapply beside_lt; eauto|auto]|].
      eapply rt1n_mono; [|exact P]. intros a b (R1 & R2 & R3). split; auto.
  - intros u w Hu X Y BS. destruct (Nat.eq_dec u var) as [->|N]; [apply C; apply NB; auto|]. apply (AD u w); auto. unfold cl. rewrite nth_upd_neq; auto.
Qed.

(** ** The loop over all variables *)
Variable fx : fixes.
Hypothesis LFX : length fx = n.
Variable m : man T.
Hypothesis HF : a_fix m = map (fun v => negb (is_free fx v)) (seq 0 n).
Hypothesis LV2 : length (a_v2s m) = n.

Definition fr (v : nat) : Prop := v < n /\ is_free fx v = true.
Lemma joined_trans : forall a b c, joined g fx a b -> joined g fx b c -> joined g fx a c.
Proof. intros a b c. apply rt1n_trans. Qed.
Lemma joined_sym : forall a b, fr a -> joined g fx a b -> joined g fx b a.
Proof.
  intros a b Ha H. induction H as [a|a w b (R1 & R2 & R3) H IH]; [apply rt1n_refl|]. destruct Ha as [Ha1 Ha2].
  apply (joined_trans b w a). { apply IH. split; auto. rewrite <- LFX. auto. }
  eapply Relation_Operators.rt1n_trans; [|apply rt1n_refl]. split; [apply beside_sym; auto|]. split; [lia|auto].
Qed.
Lemma joined_fr : forall a b, fr a -> joined g fx a b -> fr b.
Proof. intros a b Ha H. induction H as [a|a w b (R1 & R2 & R3) H IH]; auto. apply IH. split; auto. lia. Qed.

Record cinv (j : nat) (p : list bool * list nat * nat) : Prop := {
  ci_l1 : length (fst (fst p)) = n;
  ci_l2 : length (snd (fst p)) = n;
  ci_fix : forall v, v < n -> is_free fx v = false -> cl (fst (fst p)) v = true;
  ci_done : forall v, v < j -> cl (fst (fst p)) v = true;
  ci_closed : forall u w, fr u -> cl (fst (fst p)) u = true -> beside g u w -> cl (fst (fst p)) w = true;
  ci_lt : forall u, fr u -> cl (fst (fst p)) u = true -> nth u (snd (fst p)) 0 < snd p;
  ci_eq : forall u v, fr u -> fr v -> cl (fst (fst p)) u = true -> cl (fst (fst p)) v = true -> (nth u (snd (fst p)) 0 = nth v (snd (fst p)) 0 <-> joined g fx u v);
  ci_surj : forall i, i < snd p -> exists v, fr v /\ cl (fst (fst p)) v = true /\ nth v (snd (fst p)) 0 = i }.

Lemma fr_dec : forall v, v < n -> {fr v} + {is_free fx v = false}.
Proof. intros v Hv. unfold fr. destruct (is_free fx v); auto. Qed.

Lemma components_ok : exists v2s k, components T g m = Ret (v2s, k) /\ length v2s = n /\
  (forall v, fr v -> nth v v2s 0 < k) /\ (forall u v, fr u -> fr v -> (nth u v2s 0 = nth v v2s 0 <-> joined g fx u v)) /\
  (forall i, i < k -> exists v, fr v /\ nth v v2s 0 = i).
Proof.
  unfold components. fold n. set (step := fun (p : list bool * list nat * nat) v => let '(closed, v2s, k) := p in b <- rd closed v ;;
     if b : bool then Ret p else ' (closed, v2s) <- expand T g (S n) k v (closed, v2s) ;; Ret (closed, v2s, S k)).
  assert (FL : length (a_fix m) = n) by (rewrite HF, map_length, seq_length; auto).
  assert (CF : forall v, v < n -> cl (a_fix m) v = negb (is_free fx v)).
  { intros v Hv. unfold cl. apply nth_error_nth. rewrite HF, nth_error_map, (nth_error_nth' (seq 0 n) 0) by (rewrite seq_length; auto). rewrite seq_nth by auto. auto. }
  assert (G : forall j, j <= n -> exists p, foldM step (seq 0 j) (a_fix m, a_v2s m, 0) = Ret p /\ cinv j p).
  { induction j as [|j IH]; intros Hj.
    - eexists. split; [reflexivity|]. constructor; cbn [fst snd]; auto; try lia.
      + intros v Hv Fv. rewrite CF, Fv by auto. auto.
      + intros u w [Hu Fu] C. rewrite CF, Fu in C by auto. discriminate.
      + intros u [Hu Fu] C. rewrite CF, Fu in C by auto. discriminate.
      + intros u v [Hu Fu] _ C. rewrite CF, Fu in C by auto. discriminate.
    - destruct IH as ([[c s] k] & E & [I1 I2 I3 I4 I5 I6 I7 I8]); [lia|]. cbn [fst snd] in *. rewrite seq_S, foldM_app, E. cbn [bind foldM]. rewrite Nat.add_0_l. unfold step at 1.
      rewrite (rd_nth _ c j false) by lia. cbn [bind]. destruct (nth j c false) eqn:Ej.
      + eexists. split; [reflexivity|]. constructor; cbn [fst snd]; auto. intros v Hv. destruct (Nat.eq_dec v j) as [->|]; auto. apply I4. lia.
      + assert (Fj : fr j). { destruct (fr_dec j Hj) as [|X]; auto. change (cl c j = false) in Ej. rewrite (I3 j) in Ej; auto; discriminate. }
        destruct (expand_ok (S n) k j (c, s) I1 I2 Hj) as ([c' s'] & E' & [P1 P2 PM PN PD] & Cj). { unfold unc. cbn [fst]. pose proof (filter_length_le' _ (fun v => negb (cl c v)) (seq 0 n)). rewrite seq_length in *. lia. }
        rewrite E'. cbn [bind]. cbn [fst snd] in *. eexists. split; [reflexivity|].
        (* new vertices are joined with j *)
        assert (NEW : forall v, fr v -> cl c v = false -> cl c' v = true -> nth v s' 0 = k /\ joined g fx j v).
        { intros v [Hv Fv] X Y. destruct (PN v Hv X Y) as [Z (q & <- & _ & P)]. split; auto. eapply rt1n_mono; [|exact P].
          intros a b (R1 & R2 & R3). split; auto. split; [lia|]. destruct (is_free fx b) eqn:Fb; auto. rewrite (I3 b) in R3; auto; discriminate. }
        assert (OLD : forall u v, fr u -> cl c u = true -> joined g fx u v -> cl c v = true).
        { intros u v Hu X P. induction P as [u|u w v (R1 & R2 & R3) P IHP]; auto. apply IHP; [split; auto; lia|]. apply (I5 u w); auto. }
        constructor; cbn [fst snd]; auto.
        * intros v Hv Fv. apply PM. auto.
        * intros v Hv. destruct (Nat.eq_dec v j) as [->|]; auto. apply PM. apply I4. lia.
        * intros u w Hu X BS. destruct (cl c u) eqn:Y; [apply PM; apply (I5 u w); auto|]. apply (PD u w); auto. apply Hu.
        * intros u Hu X. destruct (cl c u) eqn:Y; [destruct (PM u Y) as [_ ->]; specialize (I6 u Hu Y); lia|]. destruct (NEW u Hu Y X) as [-> _]. lia.
        * intros u v Hu Hv X Y. destruct (cl c u) eqn:Cu, (cl c v) eqn:Cv.
          -- destruct (PM u Cu) as [_ ->]. destruct (PM v Cv) as [_ ->]. auto.
          -- destruct (PM u Cu) as [_ ->]. destruct (NEW v Hv Cv Y) as [-> Jv]. split; intros Z; [specialize (I6 u Hu Cu); lia|]. rewrite (OLD u v) in Cv; auto; discriminate.
          -- destruct (PM v Cv) as [_ ->]. destruct (NEW u Hu Cu X) as [-> Ju]. split; intros Z; [specialize (I6 v Hv Cv); lia|]. apply joined_sym in Z; auto. rewrite (OLD v u) in Cu; auto; discriminate.
          -- destruct (NEW u Hu Cu X) as [-> Ju]. destruct (NEW v Hv Cv Y) as [-> Jv]. split; auto. intros _. apply joined_trans with (b := j); auto. apply joined_sym; auto.
        * intros i Hi. destruct (Nat.eq_dec i k) as [->|N].
          -- exists j. split; auto. split; auto. apply (NEW j); auto.
          -- destruct (I8 i ltac:(lia)) as (v & Hv & Cv & Ev). exists v. split; auto. destruct (PM v Cv) as [-> ->]. auto. }
  destruct (G n (le_n _)) as ([[c s] k] & E & [I1 I2 I3 I4 I5 I6 I7 I8]). rewrite E. cbn [bind]. cbn [fst snd] in *. exists s, k. split; auto. split; auto.
  assert (C : forall v, fr v -> cl c v = true) by (intros v [Hv _]; auto).
  split; [intros; apply I6; auto|]. split; [intros; apply I7; auto|]. intros i Hi. destruct (I8 i Hi) as (v & Hv & _ & Ev). eauto.
Qed.
End S.
