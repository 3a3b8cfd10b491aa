(** Proofs about CombiLP: masks, and one cycle of the ILP loop. *)
From Coq Require Import Sorted.
From Verif Require Import Base Values GmView GmViewSpec GmViewProofs ShapeSpec ShapeProofs MovemakerSpec SubmodelModel SubmodelProps ManipulatorModel ManipulatorSpec ManipulatorRep ManipulatorProofs ManipulatorProps.
From Verif Require Import TentacleProps RedSpec RedProofs CombiModel CombiSpec.

(** ** Masks *)
Section Masks.
Variable T : Type.
Variable gm : gmv T.
Hypothesis W : wf_gmv gm.
Notation n := (length (v_labels gm)).
Notation on m v := (nth v m false = true).
Definition touch (v w : nat) : Prop := exists fc, In fc (v_factors gm) /\ 2 <= length (fst fc) /\ In v (fst fc) /\ In w (fst fc).

Lemma vis_lt : forall fc, In fc (v_factors gm) -> Forall (fun v => v < n) (fst fc).
Proof. intros fc I. destruct W as [F _]. rewrite Forall_forall in F. apply F. auto. Qed.
Lemma adj_in : forall k v, In k (v_adj T gm v) <-> exists fc, nth_error (v_factors gm) k = Some fc /\ In v (fst fc).
Proof.
  intros k v. unfold v_adj. rewrite filter_In, in_seq. split.
  - intros [_ E]. destruct (nth_error (v_factors gm) k) as [[vis f]|]; [|discriminate]. apply existsb_exists in E. destruct E as (u & I & E). apply Nat.eqb_eq in E. subst u. eauto.
  - intros (fc & E & I). split; [split; [lia|apply nth_error_Some; congruence]|]. rewrite E. destruct fc as [vis f]. apply existsb_exists. exists v. split; auto. apply Nat.eqb_refl.
Qed.
Lemma make_ok : forall vis mask, Forall (fun v => v < length mask) vis -> exists m', MakeFactorVariablesTrue vis mask = Ret m' /\ length m' = length mask /\
  forall w, on m' w <-> on mask w \/ In w vis.
Proof.
  intros vis. induction vis as [|v vis IH]; intros mask F; cbn; [exists mask; split; auto; split; auto; intros w; tauto|]. inversion F as [|? ? Hv F']; subst.
  rewrite wr_Ret by auto. cbn. destruct (IH (upd mask v true)) as (m' & E & L & H); [rewrite length_upd; auto|]. exists m'. split; auto. rewrite length_upd in L. split; auto. intros w. rewrite H.
  destruct (Nat.eq_dec v w) as [<-|N]; [rewrite nth_upd_eq by auto; tauto|]. rewrite nth_upd_neq by auto. tauto.
Qed.
Lemma dil_gen : forall ks mask, length mask = n -> (forall k, In k ks -> k < length (v_factors gm)) ->
  exists m', foldM (fun m k => fc <- rd (v_factors gm) k ;; if 1 <? length (fst fc) then MakeFactorVariablesTrue (fst fc) m else Ret m) ks mask = Ret m' /\ length m' = n /\
  forall w, on m' w <-> on mask w \/ exists k fc, In k ks /\ nth_error (v_factors gm) k = Some fc /\ 2 <= length (fst fc) /\ In w (fst fc).
Proof.
  intros ks. induction ks as [|k ks IH]; intros mask L HK; cbn [foldM].
  { exists mask. split; auto. split; auto. intros w. split; auto. intros [H|(k & fc & [] & _)]; auto. }
  destruct (nth_error (v_factors gm) k) as [fc|] eqn:E; [|apply nth_error_None in E; specialize (HK k (or_introl eq_refl)); lia].
  unfold rd at 1. rewrite E. cbn [bind]. destruct (Nat.ltb_spec 1 (length (fst fc))) as [Hl|Hl].
  - destruct (make_ok (fst fc) mask) as (m1 & E1 & L1 & H1); [rewrite L; apply vis_lt; eapply nth_error_In; eauto|]. rewrite E1. cbn [bind]. destruct (IH m1) as (m' & E' & L' & H'); [congruence|intros; apply HK; right; auto|].
    exists m'. split; auto. split; auto. intros w. rewrite H', H1. split.
    + intros [[H|H]|(k2 & fc2 & I & H)]; auto; right; [exists k, fc; split; [left; auto|]; auto|exists k2, fc2; split; [right; auto|auto]].
    + intros [H|(k2 & fc2 & [->|I] & E2 & H2 & H3)]; auto; [left; right; congruence|]. right. exists k2, fc2. auto.
  - cbn [bind]. destruct (IH mask L) as (m' & E' & L' & H'); [intros; apply HK; right; auto|]. exists m'. split; auto. split; auto. intros w. rewrite H'. split.
    + intros [H|(k2 & fc2 & I & H)]; auto. right. exists k2, fc2. split; [right; auto|auto].
    + intros [H|(k2 & fc2 & [->|I] & E2 & H2 & H3)]; auto; [assert (fc2 = fc) by congruence; subst; lia|]. right. exists k2, fc2. auto.
Qed.
Lemma dilvar_ok : forall mask v, length mask = n -> exists m', DilateVar T gm mask v = Ret m' /\ length m' = n /\ forall w, on m' w <-> on mask w \/ touch v w.
Proof.
  intros mask v L. destruct (dil_gen (v_adj T gm v) mask L) as (m' & E & L' & H).
  { intros k I. apply adj_in in I. destruct I as (fc & E & _). apply nth_error_Some. congruence. }
  exists m'. split; auto. split; auto. intros w. rewrite H. apply or_iff_compat_l. split.
  - intros (k & fc & I & E1 & L1 & I1). apply adj_in in I. destruct I as (fc' & E2 & I2). assert (fc' = fc) by congruence. subst. exists fc. split; [eapply nth_error_In; eauto|auto].
  - intros (fc & I & L1 & I1 & I2). destruct (In_nth_error _ _ I) as (k & Ek). exists k, fc. split; [apply adj_in; eauto|auto].
Qed.
Lemma dilvars_ok : forall vs mask, length mask = n -> exists m', foldM (DilateVar T gm) vs mask = Ret m' /\ length m' = n /\ forall w, on m' w <-> on mask w \/ exists v, In v vs /\ touch v w.
Proof.
  intros vs. induction vs as [|v vs IH]; intros mask L; cbn [foldM].
  { exists mask. split; auto. split; auto. intros w. split; auto. intros [H|(v & [] & _)]; auto. }
  destruct (dilvar_ok mask v L) as (m1 & E1 & L1 & H1). rewrite E1. cbn [bind]. destruct (IH m1 L1) as (m' & E' & L' & H'). exists m'. split; auto. split; auto. intros w. rewrite H', H1. split.
  - intros [[H|H]|(u & I & H)]; auto; right; [exists v; split; [left|]; auto|exists u; split; [right|]; auto].
  - intros [H|(u & [->|I] & H)]; auto. right. eauto.
Qed.
Lemma dilmask_ok : forall mask, length mask = n -> exists m', DilateMask T gm mask = Ret m' /\ length m' = n /\ forall w, on m' w <-> on mask w \/ exists v, on mask v /\ touch v w.
Proof.
  intros mask L. unfold DilateMask. assert (G : forall vs m, Forall (fun v => v < n) vs -> length m = n -> exists m', foldM (fun m v => b <- rd mask v ;; if b : bool then DilateVar T gm m v else Ret m) vs m = Ret m' /\
    length m' = n /\ forall w, on m' w <-> on m w \/ exists v, In v vs /\ on mask v /\ touch v w).
  { intros vs. induction vs as [|v vs IH]; intros m F Lm; cbn [foldM]; [exists m; split; auto; split; auto; intros w; split; auto; intros [H|(v & [] & _)]; auto|].
    inversion F as [|? ? Hv F']; subst. rewrite (rd_nth _ _ v false) by lia. cbn [bind]. destruct (nth v mask false) eqn:B.
    - destruct (dilvar_ok m v Lm) as (m1 & E1 & L1 & H1). rewrite E1. cbn [bind]. destruct (IH m1 F' L1) as (m' & E' & L' & H'). exists m'. split; auto. split; auto. intros w. rewrite H', H1. split.
      + intros [[H|H]|(u & I & H)]; auto; right; [exists v; split; [left|]; auto|exists u; split; [right|]; auto].
      + intros [H|(u & [->|I] & H & H2)]; auto. right. eauto.
    - cbn [bind]. destruct (IH m F' Lm) as (m' & E' & L' & H'). exists m'. split; auto. split; auto. intros w. rewrite H'. split.
      + intros [H|(u & I & H)]; auto. right. exists u. split; [right|]; auto.
      + intros [H|(u & [->|I] & H & H2)]; auto; [congruence|]. right. eauto. }
  destruct (G (seq 0 (length mask)) mask) as (m' & E & L' & H); auto. { apply Forall_forall. intros v I. apply in_seq in I. lia. }
  exists m'. split; auto. split; auto. intros w. rewrite H. apply or_iff_compat_l. split; intros (v & I); [exists v; tauto|]. exists v. split; auto. apply in_seq.
  destruct (Nat.lt_ge_cases v (length mask)); [lia|]. destruct I as [I _]. rewrite nth_overflow in I by auto. discriminate.
Qed.
Lemma unmasked_ok : forall mask vis, Forall (fun v => v < length mask) vis -> exists b, unmasked mask vis = Ret b /\ (b = true <-> exists v, In v vis /\ nth v mask false = false).
Proof.
  intros mask vis F. induction F as [|v vis Hv F IH]; cbn; [exists false; split; auto; split; [discriminate|intros (v & [] & _)]|].
  rewrite (rd_nth _ _ v false) by auto. cbn. destruct (nth v mask false) eqn:B.
  - destruct IH as (b & E & H). exists b. split; auto. rewrite H. split; intros (u & I & H1); exists u; auto. destruct I as [->|I]; auto. congruence.
  - exists true. split; auto. split; auto. intros _. exists v. auto.
Qed.
Lemma boundary_ok : forall mask, length mask = n -> exists bm, GetMaskBoundary T gm mask = Ret bm /\ length bm = n /\
  forall v, on bm v <-> on mask v /\ exists w, touch v w /\ nth w mask false = false.
Proof.
  intros mask L. unfold GetMaskBoundary.
  assert (K : forall v ks bm, v < n -> length bm = n -> (forall k, In k ks -> k < length (v_factors gm)) ->
    exists bm', foldM (fun bm k => c <- rd bm v ;; if c : bool then Ret bm else fc <- rd (v_factors gm) k ;;
          if 1 <? length (fst fc) then u <- unmasked mask (fst fc) ;; if u : bool then wr bm v true else Ret bm else Ret bm) ks bm = Ret bm' /\ length bm' = n /\
     (forall w, w <> v -> nth w bm' false = nth w bm false) /\
     (on bm' v <-> on bm v \/ exists k fc w, In k ks /\ nth_error (v_factors gm) k = Some fc /\ 2 <= length (fst fc) /\ In w (fst fc) /\ nth w mask false = false)).
  { intros v ks. induction ks as [|k ks IH]; intros bm Hv Lb HK; cbn [foldM].
    { exists bm. split; auto. split; auto. split; auto. split; auto. intros [H|(k & fc & w & [] & _)]; auto. }
    rewrite (rd_nth _ _ v false) by lia. cbn [bind]. destruct (nth v bm false) eqn:B.
    { cbn [bind]. destruct (IH bm Hv Lb) as (bm' & E & L' & H1 & H2); [intros; apply HK; right; auto|]. exists bm'. split; auto. split; auto. split; auto. rewrite H2. tauto. }
    destruct (nth_error (v_factors gm) k) as [fc|] eqn:E; [|apply nth_error_None in E; specialize (HK k (or_introl eq_refl)); lia].
    unfold rd at 1. rewrite E. cbn [bind]. assert (HK' : forall k, In k ks -> k < length (v_factors gm)) by (intros; apply HK; right; auto).
    assert (SK : ~ (2 <= length (fst fc) /\ exists w, In w (fst fc) /\ nth w mask false = false) -> exists bm', foldM (fun bm k => c <- rd bm v ;; if c : bool then Ret bm else fc <- rd (v_factors gm) k ;;
          if 1 <? length (fst fc) then u <- unmasked mask (fst fc) ;; if u : bool then wr bm v true else Ret bm else Ret bm) ks bm = Ret bm' /\ length bm' = n /\
       (forall w, w <> v -> nth w bm' false = nth w bm false) /\
       (on bm' v <-> false = true \/ exists k0 fc w, In k0 (k :: ks) /\ nth_error (v_factors gm) k0 = Some fc /\ 2 <= length (fst fc) /\ In w (fst fc) /\ nth w mask false = false)).
    { intros NO. destruct (IH bm Hv Lb HK') as (bm' & E' & L' & H1 & H2). exists bm'. split; auto. split; auto. split; auto. rewrite H2, B. apply or_iff_compat_l. split.
      - intros (k2 & fc2 & w & I & H). exists k2, fc2, w. split; [right|]; auto.
      - intros (k2 & fc2 & w & [->|I] & E2 & H3 & H4 & H5); [|exists k2, fc2, w; auto]. exfalso. apply NO. assert (fc2 = fc) by congruence. subst. eauto. }
    destruct (Nat.ltb_spec 1 (length (fst fc))) as [Hl|Hl]; [|cbn [bind]; apply SK; lia].
    destruct (unmasked_ok mask (fst fc)) as (b & Eb & Hb); [rewrite L; apply vis_lt; eapply nth_error_In; eauto|]. rewrite Eb. cbn [bind]. destruct b.
    - rewrite wr_Ret by lia. cbn [bind]. destruct (IH (upd bm v true) Hv) as (bm' & E' & L' & H1 & H2); [rewrite length_upd; auto|auto|]. exists bm'. split; auto. split; auto. split.
      + intros w NW. rewrite H1 by auto. apply nth_upd_neq. auto.
      + rewrite H2. rewrite nth_upd_eq by lia. split; auto. intros _. right. destruct (proj1 Hb eq_refl) as (w & I & Hw). exists k, fc, w. split; [left|]; auto.
    - cbn [bind]. apply SK. intros [_ X]. apply Hb in X. discriminate. }
  assert (G : forall vs bm, Forall (fun v => v < n) vs -> NoDup vs -> length bm = n -> (forall v, In v vs -> nth v bm false = false) -> exists bm', foldM (fun bm v => b <- rd mask v ;;
    if b : bool then
      foldM (fun bm k => c <- rd bm v ;;
        if c : bool then Ret bm
        else fc <- rd (v_factors gm) k ;;
          if 1 <? length (fst fc) then u <- unmasked mask (fst fc) ;; if u : bool then wr bm v true else Ret bm else Ret bm) (v_adj T gm v) bm
    else Ret bm) vs bm = Ret bm' /\ length bm' = n /\ (forall w, ~ In w vs -> nth w bm' false = nth w bm false) /\
    forall v, In v vs -> (on bm' v <-> on mask v /\ exists w, touch v w /\ nth w mask false = false)).
  { intros vs. induction vs as [|v vs IH]; intros bm F ND Lb HB; cbn [foldM]; [exists bm; split; auto; split; auto; split; auto; intros v []|].
    inversion F as [|? ? Hv F']; subst. inversion ND as [|? ? NI ND']; subst. rewrite (rd_nth _ _ v false) by lia. cbn [bind]. destruct (nth v mask false) eqn:B.
    - destruct (K v (v_adj T gm v) bm Hv Lb) as (b1 & E1 & L1 & H1 & H2). { intros k I. apply adj_in in I. destruct I as (fc & E & _). apply nth_error_Some. congruence. }
      rewrite E1. cbn [bind]. destruct (IH b1 F' ND' L1) as (bm' & E' & L' & H3 & H4). { intros u I. rewrite H1; [apply HB; right; auto|intros ->; auto]. }
      exists bm'. split; auto. split; auto. split.
      + intros w NW. rewrite H3, H1; auto. * intros ->. apply NW. left; auto. * intros I. apply NW. right. auto.
      + intros u [<-|I]; [|apply H4; auto]. rewrite H3 by auto. rewrite H2. rewrite (HB v (or_introl eq_refl)). split.
        * intros [X|(k & fc & w & I & E & H5 & H6 & H7)]; [discriminate|]. split; auto. apply adj_in in I. destruct I as (fc' & E2 & I2). assert (fc' = fc) by congruence. subst. exists w. split; auto.
          exists fc. split; [eapply nth_error_In; eauto|auto].
        * intros [_ (w & (fc & I & H5 & H6 & H7) & Hw)]. right. destruct (In_nth_error _ _ I) as (k & Ek). exists k, fc, w. split; [apply adj_in; eauto|auto].
    - cbn [bind]. destruct (IH bm F' ND' Lb) as (bm' & E' & L' & H3 & H4). { intros u I. apply HB. right. auto. }
      exists bm'. split; auto. split; auto. split.
      + intros w NW. apply H3. intros I. apply NW. right. auto.
      + intros u [<-|I]; [|apply H4; auto]. rewrite H3 by auto. rewrite (HB v (or_introl eq_refl)), B. split; [discriminate|intros [X _]; discriminate]. }
  destruct (G (seq 0 (length mask)) (repeat false (length mask))) as (bm & E & Lb & H1 & H2).
  - apply Forall_forall. intros v I. apply in_seq in I. lia.
  - apply seq_NoDup.
  - rewrite repeat_length. auto.
  - intros v _. apply nth_repeat.
  - exists bm. split; auto. split; auto. intros v. destruct (Nat.lt_ge_cases v (length mask)) as [Hv|Hv]; [apply H2; apply in_seq; lia|].
    rewrite !nth_overflow by lia. split; [discriminate|intros [X _]; discriminate].
Qed.
Lemma matching_ok : forall l1 l2 mask, length mask = n -> length l1 = n -> length l2 = n -> exists res, LabelingMatching l1 l2 mask = Ret res /\
  forall v, In v res <-> on mask v /\ nth v l1 0 <> nth v l2 0.
Proof.
  intros l1 l2 mask L L1 L2. unfold LabelingMatching.
  assert (G : forall vs r, Forall (fun v => v < n) vs -> exists res, foldM (fun res v => b <- rd mask v ;;
    if b : bool then a <- rd l1 v ;; c <- rd l2 v ;; Ret (if a =? c then res else res ++ [v]) else Ret res) vs r = Ret res /\ forall v, In v res <-> In v r \/ In v vs /\ on mask v /\ nth v l1 0 <> nth v l2 0).
  { intros vs. induction vs as [|v vs IH]; intros r F; cbn [foldM]; [exists r; split; auto; intros v; split; auto; intros [H|[[] _]]; auto|].
    inversion F as [|? ? Hv F']; subst. rewrite (rd_nth _ _ v false) by lia. cbn [bind]. destruct (nth v mask false) eqn:B.
    - rewrite (rd_nth _ l1 v 0), (rd_nth _ l2 v 0) by lia. cbn [bind]. destruct (Nat.eqb_spec (nth v l1 0) (nth v l2 0)) as [E|N].
      + destruct (IH r F') as (res & E' & H). exists res. split; auto. intros u. rewrite H. split; [intros [X|[X Y]]; auto; right; split; [right|]; auto|]. intros [X|[[->|X] Y]]; auto. tauto.
      + destruct (IH (r ++ [v]) F') as (res & E' & H). exists res. split; auto. intros u. rewrite H, in_app_iff. split.
        * intros [[X|[<-|[]]]|[X Y]]; auto; right; (split; [|auto]); [left|right]; auto.
        * intros [X|[[->|X] Y]]; auto. left. right. left. auto.
    - cbn [bind]. destruct (IH r F') as (res & E' & H). exists res. split; auto. intros u. rewrite H. split; [intros [X|[X Y]]; auto; right; split; [right|]; auto|]. intros [X|[[->|X] Y]]; auto. destruct Y; congruence. }
  destruct (G (seq 0 (length mask)) []) as (res & E & H). { apply Forall_forall. intros v I. apply in_seq in I. lia. }
  exists res. split; auto. intros v. rewrite H. split; [intros [[]|[_ Y]]; auto|]. intros Y. right. split; auto. apply in_seq. destruct Y as [Y _]. destruct (Nat.lt_ge_cases v (length mask)); [lia|]. rewrite nth_overflow in Y by auto. discriminate.
Qed.
End Masks.
