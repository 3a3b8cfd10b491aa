(** Sets of variables that cannot be relabeled for the better, and the sequences that stand for them. *)
From Verif Require Import Base Values GmView GmViewSpec ShapeSpec ShapeProofs GmProofs GmViewProofs
  MovemakerModel MovemakerSpec MovemakerProofs MovemakerSearch IcmModel IcmProofs LazyFlipperModel LazyFlipperForest LazyFlipperEnum.
From Coq Require Import Sorted.
#[local] Arguments nth_error : simpl never.

Definition set_opt {T : Type} (OP : oper T) (ACC : accum T) (g : gmv T) (x D : list nat) : Prop :=
  forall y, labeling g y -> (forall v, ~ In v D -> nth v y 0 = nth v x 0) -> (forall v, In v D -> nth v y 0 <> nth v x 0) ->
    a_bop ACC (total OP g y) (total OP g x) = false.

(** Greedy enumeration of a set: either it is a generated sequence, or it splits into two parts that are not adjacent. *)
Section Greedy.
Variable n : nat.
Variable adj : list (list nat).
Notation nbr u w := (In w (nth u adj [])).
Hypothesis NB : forall u w, nbr u w -> w < n.

Definition least (l : list nat) (m : nat) : Prop := In m l /\ forall w, In w l -> m <= w.
Lemma least_ex : forall l, l <> [] -> exists m, least l m.
Proof.
  induction l as [|a l IH]; [congruence|]. intros _. destruct l as [|b l].
  - exists a. split; [left; auto|]. intros w [<-|[]]. auto.
  - destruct IH as (m & Hm & HL); [discriminate|]. destruct (Nat.le_gt_cases a m).
    + exists a. split; [left; auto|]. intros w [<-|Hw]; auto. specialize (HL w Hw). lia.
    + exists m. split; [right; auto|]. intros w [<-|Hw]; auto. lia.
Qed.

Definition greedy (D R : list nat) : Prop := canon n adj R /\ incl R D /\ least D (hd 0 R) /\
  forall j k w, j < k -> k < length R -> In w D -> ~ In w R -> nbr (nth j R 0) w -> nth k R 0 < w.

Lemma greedy_step : forall D R, greedy D R ->
  (exists w, greedy D (R ++ [w])) \/ (forall w u, In w D -> ~ In w R -> In u R -> ~ nbr u w).
Proof.
  intros D R (HC & HI & HL & HG).
  set (cand := filter (fun w => negb (mem w R) && existsb (fun u => mem w (nth u adj [])) R) D).
  assert (CS : forall w, In w cand <-> In w D /\ ~ In w R /\ exists u, In u R /\ nbr u w).
  { intros w. unfold cand. rewrite filter_In, andb_true_iff, negb_true_iff, existsb_exists. split.
    - intros (A & B & u & C & D'). apply mem_In in D'. repeat split; eauto. intros X. apply mem_In in X. congruence.
    - intros (A & B & u & C & D'). split; auto. split; [|exists u; split; auto; apply mem_In; auto]. destruct (mem w R) eqn:E; auto. apply mem_In in E. contradiction. }
  destruct cand as [|c0 cs] eqn:EC.
  - right. intros w u A B C X. assert (Y : In w []) by (apply CS; eauto). destruct Y.
  - left. destruct (least_ex (c0 :: cs)) as (w & Hw & ML); [discriminate|]. apply CS in Hw. destruct Hw as (A & B & u & C & X).
    assert (NE : R <> []) by (intros ->; destruct C). exists w.
    assert (OK : ok adj R w).
    { split; auto. split; [eauto|]. split.
      - destruct HL as [HL1 HL2]. specialize (HL2 w A). assert (hd 0 R <> w); [|lia]. destruct R as [|r R]; [congruence|]. cbn. intros ->. apply B. left. auto.
      - intros j k Hjk Hk Y. apply (HG j k w); auto. }
    split; [apply canon_snoc; auto|]. split; [|split].
    + intros v Hv. apply in_app_iff in Hv. destruct Hv as [Hv|[<-|[]]]; auto.
    + destruct R; [congruence|]. auto.
    + intros j k w' Hjk Hk HD HN Y. rewrite app_length in Hk. cbn in Hk.
      assert (HN1 : ~ In w' R) by (intros Z; apply HN, in_app_iff; auto). assert (HN2 : w' <> w) by (intros ->; apply HN, in_app_iff; right; left; auto).
      rewrite app_nth1 in Y by lia. destruct (Nat.eq_dec k (length R)) as [->|Nk].
      * rewrite app_nth2, Nat.sub_diag by lia. cbn. assert (w <= w'); [|lia]. apply ML. apply CS. split; auto. split; auto. exists (nth j R 0). split; auto. apply nth_In. lia.
      * rewrite app_nth1 by lia. apply (HG j k w'); auto. lia.
Qed.

Lemma greedy_all : forall D, NoDup D -> D <> [] -> Forall (fun v => v < n) D ->
  exists R, canon n adj R /\ incl R D /\ R <> [] /\ (forall w u, In w D -> ~ In w R -> In u R -> ~ nbr u w).
Proof.
  intros D ND NE FB. assert (ST : exists R, greedy D R).
  { destruct (least_ex D NE) as (m & Hm & HL). exists [m]. split; [constructor; rewrite Forall_forall in FB; auto|]. split; [intros v [<-|[]]; auto|]. split; [split; auto|].
    intros j k w A B. cbn in B. lia. }
  destruct ST as [R0 G0].
  assert (H : forall d R, length D - length R <= d -> greedy D R -> exists R, canon n adj R /\ incl R D /\ R <> [] /\ (forall w u, In w D -> ~ In w R -> In u R -> ~ nbr u w)).
  { induction d as [|d IH]; intros R Hd G; destruct (greedy_step D R G) as [[w G']|X].
    - exfalso. destruct G' as (C' & I' & _). destruct (canon_fit n adj NB _ C') as [ND' _]. pose proof (NoDup_incl_length ND' I') as Y. rewrite app_length in Y. cbn in Y. lia.
    - exists R. destruct G as (C & I & _). split; auto. split; auto. split; auto. pose proof (canon_length n adj R C). intros ->. cbn in *. lia.
    - apply (IH (R ++ [w])); auto. rewrite app_length. cbn. lia.
    - exists R. destruct G as (C & I & _). split; auto. split; auto. split; auto. pose proof (canon_length n adj R C). intros ->. cbn in *. lia. }
  apply (H (length D) R0); auto. lia.
Qed.
End Greedy.

Section S.
Variable T : Type.
Variable OP : oper T.
Variable ACC : accum T.
Variable fin : T -> Prop.
Hypothesis OL : op_laws fin OP.
Hypothesis AL : acc_laws fin OP ACC.
Variable g : gmv T.
Hypothesis W : wf_gmv g.
Hypothesis FG : fin_gmv fin g.
Notation better := (a_bop ACC).
Let n := length (v_labels g).
Let nf := length (v_factors g).

Definition touched (D : list nat) : list nat :=
  filter (fun k => match nth_error (v_factors g) k with Some fc => existsb (fun v => mem v D) (fst fc) | None => false end) (seq 0 nf).
Lemma touched_spec : forall D k, In k (touched D) <-> exists fc v, nth_error (v_factors g) k = Some fc /\ In v (fst fc) /\ In v D.
Proof.
  intros D k. unfold touched. rewrite filter_In, in_seq. split.
  - intros [_ H]. destruct (nth_error (v_factors g) k) as [fc|]; [|discriminate]. apply existsb_exists in H. destruct H as (v & A & B). apply mem_In in B. eauto.
  - intros (fc & v & E & A & B). split; [assert (k < nf) by (apply nth_error_Some; congruence); lia|]. rewrite E. apply existsb_exists. exists v. split; auto. apply mem_In. auto.
Qed.
Lemma touched_covers : forall D, covers T g (touched D) D.
Proof.
  intros D. split; [apply (filter_seq_sorted T g)|]. split.
  - intros k H. apply touched_spec in H. destruct H as (fc & v & E & _). apply nth_error_Some. congruence.
  - intros v k fc Hv E H. apply touched_spec. eauto.
Qed.

(** The comparison depends on the neighbourhood only. *)
Lemma better_local : forall D x y x' y', labeling g x -> labeling g y -> labeling g x' -> labeling g y' ->
  (forall v, ~ In v D -> nth v y 0 = nth v x 0) -> (forall v, ~ In v D -> nth v y' 0 = nth v x' 0) ->
  (forall v u, In v D -> neighbours g v u -> nth u x' 0 = nth u x 0 /\ nth u y' 0 = nth u y 0) ->
  better (total OP g y') (total OP g x') = better (total OP g y) (total OP g x).
Proof.
  intros D x y x' y' Lx Ly Lx' Ly' O O' N.
  destruct (total_change T OP fin OL g W FG (touched D) D y x (touched_covers D) Ly Lx O) as (r & Fr & E1 & E2).
  destruct (total_change T OP fin OL g W FG (touched D) D y' x' (touched_covers D) Ly' Lx' O') as (r' & Fr' & E1' & E2').
  rewrite E1, E2, E1', E2'.
  assert (FB : forall y, labeling g y -> fin (big T OP (touched D) (fun k => val T OP g k y))).
  { intros. apply (big_fin T OP fin OL). intros. apply (val_fin T OP fin OL); auto. }
  rewrite (ol_comm _ _ OL _ r), (ol_comm _ _ OL _ r), (ol_comm _ _ OL _ r'), (ol_comm _ _ OL _ r') by auto. rewrite !(al_mono _ _ _ AL) by auto.
  f_equal; apply big_ext; intros k Hk; apply touched_spec in Hk; destruct Hk as (fc & v & E & Hv & HD); unfold val; rewrite E; f_equal; apply at_vars_ext;
    intros u Hu; apply (N v); auto; exists k, fc; auto.
Qed.

(** [y] on [D] and [x] elsewhere. *)
Definition mix (D y x : list nat) : list nat := map (fun v => if mem v D then nth v y 0 else nth v x 0) (seq 0 n).
Lemma mix_nth : forall D y x v, length y = n -> length x = n -> nth v (mix D y x) 0 = if mem v D then nth v y 0 else nth v x 0.
Proof.
  intros D y x v Ly Lx. unfold mix. destruct (Nat.lt_ge_cases v n) as [H|H].
  - rewrite (nth_indep _ 0 (if mem 0 D then nth 0 y 0 else nth 0 x 0)) by (rewrite map_length, seq_length; auto).
    rewrite (map_nth (fun v => if mem v D then nth v y 0 else nth v x 0)), seq_nth by auto. auto.
  - rewrite !nth_overflow; auto; [destruct (mem v D); auto|lia|lia|rewrite map_length, seq_length; auto].
Qed.
Lemma labeling_of : forall x, length x = n -> (forall v, v < n -> nth v x 0 < nth v (v_labels g) 0) -> labeling g x.
Proof.
  unfold labeling, in_shape, n. generalize (v_labels g). intros l x. revert l. induction x as [|a x IH]; intros [|k l] HL H; cbn in HL; try lia; constructor.
  - apply (H 0). cbn. lia.
  - apply IH; [lia|]. intros v Hv. apply (H (S v)). cbn. lia.
Qed.
Lemma mix_labeling : forall D y x, labeling g y -> labeling g x -> labeling g (mix D y x).
Proof.
  intros D y x Ly Lx. pose proof (labeling_length _ g _ Ly) as L1. pose proof (labeling_length _ g _ Lx) as L2. apply labeling_of.
  - unfold mix. rewrite map_length. apply seq_length.
  - intros v Hv. rewrite mix_nth by auto. destruct (mem v D); apply (label_lt T g); auto.
Qed.
Lemma mix_on : forall D y x v, labeling g y -> labeling g x -> In v D -> nth v (mix D y x) 0 = nth v y 0.
Proof. intros D y x v Ly Lx H. rewrite mix_nth by (apply (labeling_length _ g); auto). apply mem_In in H. rewrite H. auto. Qed.
Lemma mix_off : forall D y x v, labeling g y -> labeling g x -> ~ In v D -> nth v (mix D y x) 0 = nth v x 0.
Proof. intros D y x v Ly Lx H. rewrite mix_nth by (apply (labeling_length _ g); auto). destruct (mem v D) eqn:E; auto. apply mem_In in E. contradiction. Qed.

Lemma set_opt_local : forall D x y, labeling g x -> labeling g y -> (forall v, In v D -> nth v x 0 = nth v y 0) ->
  (forall v u, In v D -> neighbours g v u -> nth u x 0 = nth u y 0) -> set_opt OP ACC g x D -> set_opt OP ACC g y D.
Proof.
  intros D x y Lx Ly HD HN H y' Ly' O N.
  rewrite (better_local D x (mix D y' x) y y'); auto; try (apply mix_labeling; auto).
  - apply H; [apply mix_labeling; auto| |].
    + intros v Hv. apply mix_off; auto.
    + intros v Hv. rewrite mix_on, HD; auto.
  - intros v Hv. apply mix_off; auto.
  - intros v u Hv Hu. split; [symmetry; eauto|]. destruct (in_dec Nat.eq_dec u D).
    + rewrite mix_on; auto.
    + rewrite mix_off, O by auto. symmetry. eauto.
Qed.

(** Two parts that are not adjacent. *)
Lemma set_opt_split : forall x D D1 D2, labeling g x -> (forall v, In v D <-> In v D1 \/ In v D2) -> (forall v, In v D1 -> ~ In v D2) ->
  (forall u v, In u D1 -> In v D2 -> ~ neighbours g v u) -> set_opt OP ACC g x D1 -> set_opt OP ACC g x D2 -> set_opt OP ACC g x D.
Proof.
  intros x D D1 D2 Lx HD DJ NA H1 H2 y Ly O N. set (x1 := mix D1 y x). assert (L1 : labeling g x1) by (apply mix_labeling; auto).
  assert (Fx : forall y, labeling g y -> fin (total OP g y)) by (intros; apply (total_fin T OP fin OL); auto).
  apply (al_negtrans _ _ _ AL) with (b := total OP g x1); auto.
  - rewrite (better_local D2 x (mix D2 y x) x1 y); auto; try (apply mix_labeling; auto).
    + apply H2; [apply mix_labeling; auto| |].
      * intros v Hv. apply mix_off; auto.
      * intros v Hv. rewrite mix_on by auto. apply N. apply HD. auto.
    + intros v Hv. apply mix_off; auto.
    + intros v Hv. unfold x1. destruct (in_dec Nat.eq_dec v D1); [rewrite mix_on; auto|]. rewrite mix_off by auto. apply O. rewrite HD. tauto.
    + intros v u Hv Hu. assert (~ In u D1) by (intros X; apply (NA u v X Hv Hu)). split; [apply mix_off; auto|].
      destruct (in_dec Nat.eq_dec u D2); [rewrite mix_on; auto|]. rewrite mix_off by auto. apply O. rewrite HD. tauto.
  - apply H1; auto.
    + intros v Hv. apply mix_off; auto.
    + intros v Hv. unfold x1. rewrite mix_on by auto. apply N. apply HD. auto.
Qed.
Lemma set_opt_nil : forall x, labeling g x -> set_opt OP ACC g x [].
Proof.
  intros x Lx y Ly O _. assert (y = x).
  { apply (nth_ext _ _ 0 0); [rewrite (labeling_length _ g _ Ly), (labeling_length _ g _ Lx); auto|]. intros v _. apply O. intros []. }
  subst. apply (al_irrefl _ _ _ AL). apply (total_fin T OP fin OL); auto.
Qed.

(** Enough to look at the generated sequences. *)
Lemma canon_enough : forall adj, adj_ok T g adj -> (forall u w, In w (nth u adj []) -> w < n) ->
  forall x K, labeling g x -> (forall R, canon n adj R -> length R <= K -> set_opt OP ACC g x R) ->
  forall D, NoDup D -> Forall (fun v => v < n) D -> length D <= K -> set_opt OP ACC g x D.
Proof.
  intros adj [LA HA] NB x K Lx HR.
  assert (IND : forall d D, length D <= d -> NoDup D -> Forall (fun v => v < n) D -> length D <= K -> set_opt OP ACC g x D).
  { induction d as [|d IH]; intros D Hd ND FB HK.
    - destruct D; [|cbn in Hd; lia]. apply set_opt_nil. auto.
    - destruct D as [|a D']; [apply set_opt_nil; auto|]. set (D := a :: D') in *.
      destruct (greedy_all n adj NB D ND ltac:(discriminate) FB) as (R & CR & IR & NR & SP).
      destruct (canon_fit n adj NB R CR) as [NDR FR]. pose proof (NoDup_incl_length NDR IR) as LR.
      set (D2 := filter (fun v => negb (mem v R)) D).
      assert (S2 : forall v, In v D2 <-> In v D /\ ~ In v R).
      { intros v. unfold D2. rewrite filter_In, negb_true_iff. split; intros [A B]; split; auto.
        - intros X. apply mem_In in X. congruence.
        - destruct (mem v R) eqn:E; auto. apply mem_In in E. contradiction. }
      assert (ND2 : NoDup D2) by (apply NoDup_filter; auto).
      apply (set_opt_split x D R D2); auto.
      + intros v. rewrite S2. split; [|intros [X|[X _]]; auto]. intros Hv. destruct (in_dec Nat.eq_dec v R); auto.
      + intros v Hv X. apply S2 in X. apply X. auto.
      + intros u v Hu Hv X. apply S2 in Hv. destruct Hv as [Hv1 Hv2]. apply (SP v u Hv1 Hv2 Hu).
        assert (Hun : u < n) by (rewrite Forall_forall in FR; auto). destruct (nth_error adj u) as [row|] eqn:E; [|apply nth_error_None in E; unfold n in *; lia].
        rewrite (nth_error_nth _ _ [] E). apply (HA u row E). split; [|intros ->; contradiction].
        destruct X as (k & fc & A & B & C). exists k, fc. auto.
      + apply HR; auto. lia.
      + apply IH; auto.
        * destruct R as [|r R]; [congruence|]. assert (LT : length (r :: D2) <= length D).
          { apply NoDup_incl_length; [constructor; auto; rewrite S2; intros [_ X]; apply X; left; auto|]. intros v [<-|Hv]; [apply IR; left; auto|]. apply S2 in Hv. apply Hv. }
          cbn [length] in LT. lia.
        * apply Forall_forall. intros v Hv. apply S2 in Hv. rewrite Forall_forall in FB. apply FB. apply Hv.
        * assert (length D2 <= length D); [|lia]. apply NoDup_incl_length; auto. intros v Hv. apply S2 in Hv. apply Hv. }
  intros D. apply (IND (length D)). auto.
Qed.
End S.
