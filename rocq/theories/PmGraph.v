(** Proofs about PmModel.v: the constructor. *)
From Coq Require Import QArith Qcanon Permutation Relations Sorted Lqa.
From Verif Require Import Base Values GmView GmViewSpec ShapeSpec ShapeProofs GmViewProofs ConstraintModel DualDecompModel DualDecompProofs HoeProofs AStarSearch DmcSpec FunctionBaseModel FunctionBaseProps FunctionPredicateProps PmModel PmSpec PmProofs PmRun.
Import DualDecompProofs.
Open Scope nat_scope.

Lemma Qc_eq_bool_iff : forall a b, Qc_eq_bool a b = true <-> a = b.
Proof. intros a b. split; [apply Qc_eq_bool_correct|]. intros ->. unfold Qc_eq_bool. destruct (Qc_eq_dec b b); congruence. Qed.
Fixpoint add_edge (es : list (nat * nat * nat)) (a b k : nat) : list (nat * nat * nat) :=
  match es with [] => [(a, b, k)] | (x, y, d) :: r => if (x =? a) && (y =? b) then (x, y, k) :: r else (x, y, d) :: add_edge r a b k end.
Lemma add_new : forall es a b k, (forall d, ~ In (a, b, d) es) -> add_edge es a b k = es ++ [(a, b, k)].
Proof.
  induction es as [|[[x y] d] r IH]; intros a b k H; [reflexivity|]. cbn [add_edge app]. destruct (Nat.eqb_spec x a) as [->|]; cbn [andb]; [destruct (Nat.eqb_spec y b) as [->|]|]; [destruct (H d (or_introl eq_refl))| |]; (rewrite IH; [reflexivity|intros d' I; apply (H d'); right; exact I]).
Qed.
Lemma add_In : forall es a b k x y d, In (x, y, d) (add_edge es a b k) -> In (x, y, d) es \/ x = a /\ y = b /\ d = k.
Proof.
  induction es as [|[[x0 y0] d0] r IH]; intros a b k x y d I; cbn [add_edge] in I. { destruct I as [I|[]]. inversion I; subst. auto. }
  destruct (Nat.eqb_spec x0 a) as [->|]; cbn [andb] in I; [destruct (Nat.eqb_spec y0 b) as [->|]|].
  - destruct I as [I|I]; [inversion I; subst; auto|left; right; exact I].
  - destruct I as [I|I]; [left; left; exact I|]. destruct (IH a b k x y d I) as [J|J]; [left; right; exact J|right; exact J].
  - destruct I as [I|I]; [left; left; exact I|]. destruct (IH a b k x y d I) as [J|J]; [left; right; exact J|right; exact J].
Qed.
Lemma nb_cons : forall x y d r v, nb ((x, y, d) :: r) v = (if x =? v then [(y, d)] else if y =? v then [(x, d)] else []) ++ nb r v.
Proof. reflexivity. Qed.
Lemma nb_add : forall es a b k v, a < b -> Forall (fun '(x, y, _) => x < y) es ->
  nb (add_edge es a b k) v = if v =? a then map_set (nb es a) b k else if v =? b then map_set (nb es b) a k else nb es v.
Proof.
  intros es a b k v AB. induction es as [|[[x y] d] r IH]; intros F; cbn [add_edge].
  - rewrite nb_cons. rewrite (Nat.eqb_sym v a), (Nat.eqb_sym v b). destruct (a =? v); [reflexivity|]. destruct (b =? v); reflexivity.
  - inversion F as [|? ? XY F']; subst. specialize (IH F'). destruct (Nat.eqb_spec x a) as [->|Nx]; cbn [andb].
    + destruct (Nat.eqb_spec y b) as [->|Ny].
      * rewrite !nb_cons. destruct (Nat.eqb_spec v a) as [->|Na]; [rewrite !Nat.eqb_refl; cbn; rewrite Nat.eqb_refl; reflexivity|]. destruct (Nat.eqb_spec a v) as [|_]; [congruence|].
        destruct (Nat.eqb_spec v b) as [->|Nb]; [destruct (Nat.eqb_spec a b); [lia|]; rewrite Nat.eqb_refl; cbn; rewrite Nat.eqb_refl; reflexivity|]. destruct (Nat.eqb_spec b v); [congruence|]. reflexivity.
      * rewrite !nb_cons, IH. destruct (Nat.eqb_spec v a) as [->|Na]; [rewrite !Nat.eqb_refl; cbn; destruct (Nat.eqb_spec y b); [contradiction|]; reflexivity|]. destruct (Nat.eqb_spec a v); [congruence|].
        destruct (Nat.eqb_spec v b) as [->|Nb]; [|reflexivity]. destruct (Nat.eqb_spec a b); [lia|]. destruct (Nat.eqb_spec y b); [contradiction|]. reflexivity.
    + rewrite !nb_cons, IH. destruct (Nat.eqb_spec v a) as [->|Na].
      * destruct (Nat.eqb_spec x a); [contradiction|]. destruct (Nat.eqb_spec y a) as [->|]; [|reflexivity]. cbn. destruct (Nat.eqb_spec x b); [lia|]. reflexivity.
      * destruct (Nat.eqb_spec v b) as [->|Nb]; [|reflexivity]. destruct (Nat.eqb_spec x b) as [->|]; [cbn; destruct (Nat.eqb_spec y a); [lia|reflexivity]|]. destruct (Nat.eqb_spec y b) as [->|]; [|reflexivity]. cbn. destruct (Nat.eqb_spec x a); [contradiction|]. reflexivity.
Qed.

Section Graph.
Variable gm : gmv Qc.
Notation n := (length (v_labels gm)).
Hypothesis W : wf_gmv gm.
Notation two := (fun fc : list nat * (list nat -> Qc) => length (fst fc) =? 2).
(** The labels of the variables of a factor of two variables. *)
Lemma two_vars : forall fc, In fc (v_factors gm) -> length (fst fc) = 2 -> exists a b, fst fc = [a; b] /\ a < b /\ b < n.
Proof.
  intros fc I L. destruct W as [F _]. rewrite Forall_forall in F. destruct (F fc I) as [S B]. destruct (fst fc) as [|a [|b [|]]]; try discriminate L. exists a, b. split; [reflexivity|].
  inversion S as [|? ? _ H]; subst. inversion H; subst. inversion B as [|? ? _ B']; subst. inversion B'; subst. auto.
Qed.
Lemma isPotts_ok : forall fc, In fc (v_factors gm) -> length (fst fc) = 2 -> exists b, pm_isPotts gm fc = Ret b /\ (b = true <-> partition_factor gm fc).
Proof.
  intros fc I L. destruct (two_vars fc I L) as (a & b & E & AB & BN). unfold pm_isPotts. rewrite E. cbn [mapM]. rewrite (rd_nth _ (v_labels gm) a 0) by lia. rewrite (rd_nth _ (v_labels gm) b 0) by lia. cbn [bind].
  set (sh := [nth a (v_labels gm) 0; nth b (v_labels gm) 0]). assert (PO : forall v, v < n -> 0 < nth v (v_labels gm) 0). { intros v Hv. destruct W as [_ P]. unfold positive in P. rewrite Forall_forall in P. apply P. apply nth_In. exact Hv. }
  destruct (C24_isPotts Qc Qc_eq_bool (mkG sh (fun c => Ret (snd fc c))) (snd fc) Qc_eq_bool_iff) as (r & ER & PR).
  - split; [|intros c _; reflexivity]. unfold sh. cbn [gf_shape]. constructor; [apply PO; lia|]. constructor; [apply PO; lia|constructor].
  - cbn. discriminate.
  - exists r. split; [exact ER|]. rewrite PR. cbn [gf_shape]. unfold partition_factor. rewrite E. cbn [length at_vars map nth].
    assert (AT : forall x, labeling gm x -> in_shape sh [nth a x 0; nth b x 0]).
    { intros x LX. unfold sh. constructor; [|constructor; [|constructor]]; apply in_shape_lt; try exact LX; lia. }
    assert (EQ : forall p q, all_labels_equal [p; q] <-> p = q). { intros p q. unfold all_labels_equal. split; [intros H; apply (H 0 1); cbn; lia|]. intros -> [|[|i]] [|[|j]] Hi Hj; cbn in *; lia || reflexivity. }
    split.
    + intros (e & m & H). right. split; [reflexivity|]. exists e, m. intros x LX. destruct (H _ (AT x LX)) as [H1 H2]. rewrite EQ in H1, H2. destruct (Nat.eqb_spec (nth a x 0) (nth b x 0)); auto.
    + intros [H|[_ (e & m & H)]]; [discriminate|]. exists e, m. intros c IC.
      assert (exists p q, c = [p; q] /\ p < nth a (v_labels gm) 0 /\ q < nth b (v_labels gm) 0) as (p & q & -> & Hp & Hq). { unfold sh in IC. inversion IC as [|? ? ? ? H1 H2]; subst. inversion H2 as [|? ? ? ? H3 H4]; subst. inversion H4; subst. eauto. }
      set (x := upd (upd (repeat 0 n) a p) b q). assert (LX : labeling gm x).
      { apply in_shape_nths; [unfold x; rewrite !length_upd; apply repeat_length|]. intros v Hv. unfold x. destruct (Nat.eq_dec v b) as [->|Nb]; [rewrite nth_upd_eq by (rewrite length_upd, repeat_length; lia); exact Hq|]. rewrite nth_upd_neq by auto.
        destruct (Nat.eq_dec v a) as [->|Na]; [rewrite nth_upd_eq by (rewrite repeat_length; lia); exact Hp|]. rewrite nth_upd_neq by auto. rewrite nth_repeat. apply PO. exact Hv. }
      assert (X1 : nth a x 0 = p) by (unfold x; rewrite nth_upd_neq by lia; apply nth_upd_eq; rewrite repeat_length; lia). assert (X2 : nth b x 0 = q) by (unfold x; apply nth_upd_eq; rewrite length_upd, repeat_length; lia).
      specialize (H x LX). rewrite X1, X2 in H. rewrite EQ, H. destruct (Nat.eqb_spec p q); split; intros; congruence.
Qed.

(** The constructor accepts the models of the specification and throws on all others. *)
Lemma scan_ok : forall fs t, (forall fc, In fc fs -> In fc (v_factors gm)) -> exists t', pm_scan gm t fs = Ret t' /\ (t' = MC <-> t = MC /\ Forall (partition_factor gm) fs).
Proof.
  induction fs as [|fc fs IH]; intros t H; cbn [pm_scan]. { exists t. split; [reflexivity|]. split; [intros ->; auto|tauto]. }
  assert (H' : forall fc, In fc fs -> In fc (v_factors gm)) by (intros; apply H; right; assumption). pose proof (H fc (or_introl eq_refl)) as I.
  assert (FC : forall P : Prop, (P -> partition_factor gm fc) -> (partition_factor gm fc -> P) -> (Forall (partition_factor gm) (fc :: fs) <-> P /\ Forall (partition_factor gm) fs)).
  { intros P P1 P2. split; [intros F; inversion F; subst; auto|intros [F1 F2]; constructor; auto]. }
  destruct (length (fst fc)) as [|[|[|l]]] eqn:L.
  - destruct (IH t H') as (t' & E & P). exists t'. split; [exact E|]. rewrite P. rewrite (FC True); [tauto|intros _; left; exact L|auto].
  - destruct (IH MWC H') as (t' & E & P). exists t'. split; [exact E|]. rewrite P. rewrite (FC False); [split; [intros [X _]; discriminate|tauto]|tauto|]. intros [X|[X _]]; congruence.
  - destruct (isPotts_ok fc I L) as (b & EB & PB). rewrite EB. cbn [bind]. destruct b.
    + destruct (IH t H') as (t' & E & P). exists t'. split; [exact E|]. rewrite P. rewrite (FC True); [tauto|intros _; apply PB; reflexivity|auto].
    + exists INVALID. split; [reflexivity|]. rewrite (FC False); [split; [discriminate|tauto]|tauto|]. intros X. apply PB in X. discriminate.
  - exists INVALID. split; [reflexivity|]. rewrite (FC False); [split; [discriminate|tauto]|tauto|]. intros [X|[X _]]; congruence.
Qed.
Lemma check_ok : 0 < n -> (partition_model gm /\ pm_check gm = Ret tt) \/ (~ partition_model gm /\ pm_check gm = Throw).
Proof.
  intros N0. unfold pm_check. rewrite (rd_nth _ (v_labels gm) 0 0) by exact N0. cbn [bind]. destruct (scan_ok (v_factors gm) (if existsb (fun k => k <? n) (v_labels gm) then MWC else MC) (fun _ I => I)) as (t & E & P). rewrite E. cbn [bind].
  assert (EX : (if existsb (fun k => k <? n) (v_labels gm) then MWC else MC) = MC <-> Forall (fun k => n <= k) (v_labels gm)).
  { destruct (existsb (fun k => k <? n) (v_labels gm)) eqn:X.
    - apply existsb_exists in X. destruct X as (k & I & L). apply Nat.ltb_lt in L. split; [discriminate|]. intros F. rewrite Forall_forall in F. specialize (F k I). lia.
    - split; [|reflexivity]. intros _. apply Forall_forall. intros k I. apply Nat.nlt_ge. intros L. assert (existsb (fun k => k <? n) (v_labels gm) = true); [|congruence]. apply existsb_exists. exists k. split; [exact I|apply Nat.ltb_lt; exact L]. }
  rewrite EX in P. unfold partition_model. destruct t; [right|left|right]; (split; [|reflexivity]).
  - intros X. apply P in X. discriminate.
  - apply P. reflexivity.
  - intros X. apply P in X. discriminate.
Qed.
Hypothesis PM : partition_model gm.
Hypothesis N0 : 0 < n.
Lemma labels_ge : forall v, v < n -> n <= nth v (v_labels gm) 0.
Proof. intros v Hv. destruct PM as [F _]. rewrite Forall_forall in F. apply F. apply nth_In. exact Hv. Qed.
Lemma labeling_of : forall x, length x = n -> (forall v, v < n -> nth v x 0 < n) -> labeling gm x.
Proof. intros x L H. apply in_shape_nths; [exact L|]. intros v Hv. eapply Nat.lt_le_trans; [apply H; exact Hv|apply labels_ge; exact Hv]. Qed.
Definition fval (x : list nat) (fc : list nat * (list nat -> Qc)) : Qc := snd fc (at_vars x (fst fc)).
Lemma potts_value : forall fc a b x, In fc (v_factors gm) -> fst fc = [a; b] -> labeling gm x -> fval x fc = (snd fc [0; 0]%nat + (if nth a x 0%nat =? nth b x 0%nat then 0 else cut_weight fc))%Qc.
Proof.
  intros fc a b x I E LX. destruct (two_vars fc I ltac:(rewrite E; reflexivity)) as (a' & b' & E' & AB & BN). rewrite E in E'. injection E' as <- <-.
  destruct PM as [_ F]. rewrite Forall_forall in F. destruct (F fc I) as [L|[_ (p & q & H)]]; [rewrite E in L; discriminate|].
  assert (L0 : labeling gm (repeat 0 n)) by (apply labeling_of; [apply repeat_length|intros v Hv; rewrite nth_repeat; exact N0]).
  assert (L1 : labeling gm (upd (repeat 0 n) b 1)). { apply labeling_of; [rewrite length_upd; apply repeat_length|]. intros v Hv. destruct (Nat.eq_dec v b) as [->|NE]; [rewrite nth_upd_eq by (rewrite repeat_length; lia); lia|rewrite nth_upd_neq, nth_repeat by auto; exact N0]. }
  pose proof (H _ L0) as H0. pose proof (H _ L1) as H1. pose proof (H _ LX) as HX. unfold fval. rewrite E in *. cbn [at_vars map nth] in *. rewrite !nth_repeat in *. rewrite nth_upd_eq in H1 by (rewrite repeat_length; lia). rewrite nth_upd_neq, nth_repeat in H1 by lia. cbn [Nat.eqb] in *.
  unfold cut_weight. rewrite HX, H0, H1. destruct (nth a x 0 =? nth b x 0); ring.
Qed.
(** The state of the loop over the factors. *)
Definition pre_es (pre : list (list nat * (list nat -> Qc))) : list (list nat) := map fst (filter two pre).
Definition GI (pre : list (list nat * (list nat -> Qc))) (st : graph * nat) : Prop :=
  let '(G, k) := st in exists es,
    k = length (filter two pre) /\ length (edgeWeight G) = pm_internal gm /\ (forall j, k <= j -> nth j (edgeWeight G) 0%Qc = 0%Qc) /\ neighbours G = map (nb es) (seq 0 n) /\
    Forall (fun '(a, b, e) => a < b /\ b < n /\ e < k) es /\
    (forall a b e, In (a, b, e) es -> exists fc, In fc pre /\ fst fc = [a; b] /\ nth e (edgeWeight G) 0%Qc = cut_weight fc) /\
    (NoDup (pre_es pre) -> (forall fc a b, In fc pre -> fst fc = [a; b] -> exists e, In (a, b, e) es /\ nth e (edgeWeight G) 0%Qc = cut_weight fc) /\
       exists K, forall x, labeling gm x -> qsum (fval x) pre = (K + cost G es (labs x))%Qc).
Lemma edge_ok : forall pre fc rest st, v_factors gm = pre ++ fc :: rest -> GI pre st -> exists st', pm_edge gm st fc = Ret st' /\ GI (pre ++ [fc]) st'.
Proof.
  intros pre fc rest [G k] EF (es & K1 & K2 & K3 & K4 & K5 & K6 & K7). assert (I : In fc (v_factors gm)) by (rewrite EF; apply in_or_app; right; left; reflexivity).
  unfold pm_edge. destruct PM as [_ PF]. rewrite Forall_forall in PF. destruct (PF fc I) as [L|[L _]]; rewrite L; cbn [Nat.eqb].
  - exists (G, k). split; [reflexivity|]. exists es. unfold pre_es. rewrite !filter_app. cbn [filter]. rewrite L. cbn [Nat.eqb]. rewrite app_nil_r. split; [exact K1|]. split; [exact K2|]. split; [exact K3|]. split; [exact K4|]. split; [exact K5|]. split.
    + intros a b e J. destruct (K6 a b e J) as (f & F1 & F2). exists f. split; [apply in_or_app; left; exact F1|exact F2].
    + intros ND. destruct (K7 ND) as (C1 & K & CK). split.
      * intros f a b J E. apply in_app_or in J. destruct J as [J|[<-|[]]]; [apply (C1 f a b J E)|rewrite E in L; discriminate].
      * exists (K + snd fc [])%Qc. intros x LX. rewrite qsum_app, (CK x LX), qsum_cons, qsum_nil. unfold fval at 1. destruct (fst fc); [|discriminate L]. cbn [at_vars map]. ring.
  - destruct (two_vars fc I L) as (a & b & E & AB & BN). assert (LG : forall v, v < n -> 1 < nth v (v_labels gm) 0) by (intros v Hv; pose proof (labels_ge v Hv); lia).
    assert (AT : forall l0 l1, l0 <= 1 -> l1 <= 1 -> pm_at gm fc [l0; l1] = Ret (snd fc [l0; l1])).
    { intros l0 l1 H0 H1. unfold pm_at. rewrite E. cbn [mapM]. rewrite (rd_nth _ (v_labels gm) a 0) by lia. rewrite (rd_nth _ (v_labels gm) b 0) by lia. cbn [bind combine forallb fst snd]. pose proof (LG a ltac:(lia)). pose proof (LG b BN).
      destruct (Nat.ltb_spec l0 (nth a (v_labels gm) 0)); [|lia]. destruct (Nat.ltb_spec l1 (nth b (v_labels gm) 0)); [|lia]. reflexivity. }
    rewrite !AT by lia. cbn [bind].
    assert (KL : k < pm_internal gm). { unfold pm_internal. rewrite EF, filter_app. cbn [filter]. rewrite L. cbn [Nat.eqb]. rewrite app_length. cbn [length]. lia. }
    rewrite (rd_nth _ (edgeWeight G) k 0%Qc) by lia. cbn [bind]. rewrite (K3 k (le_n _)). rewrite wr_Ret by lia. cbn [bind]. rewrite E. cbn [rd nth_error bind].
    assert (LN : length (neighbours G) = n) by (rewrite K4, map_length, seq_length; reflexivity). assert (NN : forall v, v < n -> nth v (neighbours G) [] = nb es v) by (intros v Hv; rewrite K4; apply nth_map_seq0; exact Hv).
    rewrite (rd_nth _ (neighbours G) a []) by lia. cbn [bind]. rewrite wr_Ret by lia. cbn [bind]. rewrite (rd_nth _ _ b []) by (rewrite length_upd; lia). cbn [bind]. rewrite wr_Ret by (rewrite length_upd; lia). cbn [bind].
    rewrite (nth_upd_neq _ _ a b) by lia. rewrite !NN by lia.
    eexists. split; [reflexivity|]. set (w := (0 + (snd fc [0; 1]%nat - snd fc [0; 0]%nat))%Qc). assert (WE : w = cut_weight fc) by (unfold w, cut_weight; ring).
    exists (add_edge es a b k). cbn [edgeWeight neighbours]. unfold pre_es. rewrite !filter_app. cbn [filter]. rewrite L. cbn [Nat.eqb]. rewrite !app_length. cbn [length].
    assert (LT : Forall (fun '(x, y, _) => x < y) es) by (eapply Forall_impl; [|exact K5]; intros [[x y] e]; lia).
    assert (OLD : forall j, j < k -> nth j (upd (edgeWeight G) k w) 0%Qc = nth j (edgeWeight G) 0%Qc) by (intros j Hj; apply nth_upd_neq; lia).
    assert (NEW : nth k (upd (edgeWeight G) k w) 0%Qc = w) by (apply nth_upd_eq; lia).
    assert (EL : forall x y e, In (x, y, e) es -> e < k). { intros x y e J. rewrite Forall_forall in K5. specialize (K5 _ J). cbn in K5. lia. }
    split; [lia|]. split; [rewrite length_upd; exact K2|]. split; [intros j Hj; rewrite nth_upd_neq by lia; apply K3; lia|]. split.
    { apply (nth_ext _ _ [] []); [rewrite !length_upd, map_length, seq_length; exact LN|]. intros v Hv. rewrite !length_upd, LN in Hv. rewrite nth_map_seq0 by exact Hv. rewrite (nb_add es a b k v AB LT).
      destruct (Nat.eqb_spec v a) as [->|Na]; [rewrite nth_upd_neq by lia; apply nth_upd_eq; lia|]. destruct (Nat.eqb_spec v b) as [->|Nb]; [apply nth_upd_eq; rewrite length_upd; lia|]. rewrite !nth_upd_neq by auto. apply NN. exact Hv. }
    split. { apply Forall_forall. intros [[x y] e] J. apply add_In in J. destruct J as [J|(-> & -> & ->)]; [|lia]. rewrite Forall_forall in K5. specialize (K5 _ J). cbn in K5. lia. }
    split.
    { intros x y e J. apply add_In in J. destruct J as [J|(-> & -> & ->)].
      - destruct (K6 x y e J) as (f & F1 & F2 & F3). exists f. split; [apply in_or_app; left; exact F1|]. split; [exact F2|]. rewrite OLD by (eapply EL; exact J). exact F3.
      - exists fc. split; [apply in_or_app; right; left; reflexivity|]. split; [exact E|]. rewrite NEW. exact WE. }
    intros ND. rewrite map_app in ND. cbn [map] in ND. pose proof (NoDup_remove _ _ _ ND) as [ND1 ND2]. rewrite app_nil_r in ND1, ND2. destruct (K7 ND1) as (C1 & K & CK).
    assert (FR : forall d, ~ In (a, b, d) es). { intros d J. destruct (K6 a b d J) as (f & F1 & F2 & _). apply ND2. rewrite E. apply in_map_iff. exists f. split; [exact F2|]. apply filter_In. split; [exact F1|]. rewrite F2. reflexivity. }
    rewrite (add_new es a b k FR). split.
    { intros f x y J Ef. apply in_app_or in J. destruct J as [J|[<-|[]]].
      - destruct (C1 f x y J Ef) as (e & D1 & D2). exists e. split; [apply in_or_app; left; exact D1|]. rewrite OLD by (eapply EL; exact D1). exact D2.
      - rewrite E in Ef. injection Ef as <- <-. exists k. split; [apply in_or_app; right; left; reflexivity|]. rewrite NEW. exact WE. }
    exists (K + snd fc [0; 0]%nat)%Qc. intros x LX. rewrite qsum_app, (CK x LX), qsum_cons, qsum_nil. rewrite (potts_value fc a b x I E LX).
    match goal with |- _ = (_ + cost ?H _ _)%Qc => set (G' := H) end.
    assert (CE : cost G' (es ++ [(a, b, k)]) (labs x) = (cost G es (labs x) + (if nth a x 0%nat =? nth b x 0%nat then 0 else cut_weight fc))%Qc).
    { unfold cost. rewrite qsum_app, qsum_cons, qsum_nil. f_equal.
      - apply qsum_ext. intros [[x0 y0] e] J. destruct (labs x x0 =? labs x y0); [reflexivity|]. unfold wt, G'. cbn [edgeWeight]. apply OLD. eapply EL. exact J.
      - unfold wt, G'. cbn [edgeWeight]. rewrite NEW, WE. unfold labs. destruct (nth a x 0 =? nth b x 0); ring. }
    rewrite CE. ring.
Qed.
Lemma graph_built : exists G es, pm_graph gm = Ret G /\ graph_ok gm G es /\
  (forall a b e, In (a, b, e) es -> exists fc, In fc (v_factors gm) /\ fst fc = [a; b] /\ wt G e = cut_weight fc) /\
  (no_double gm -> (forall fc a b, In fc (v_factors gm) -> fst fc = [a; b] -> exists e, In (a, b, e) es /\ wt G e = cut_weight fc) /\ exists K, forall x, labeling gm x -> total AdderQ gm x = (K + cost G es (labs x))%Qc).
Proof.
  unfold pm_graph. set (st0 := (mkGraph (repeat 0%Qc (pm_internal gm)) (repeat [] n), 0)).
  assert (X : forall rest pre st, v_factors gm = pre ++ rest -> GI pre st -> exists st', foldM (pm_edge gm) rest st = Ret st' /\ GI (v_factors gm) st').
  { induction rest as [|fc rest IH]; intros pre st E P; cbn [foldM]. { exists st. split; [reflexivity|]. rewrite E, app_nil_r. exact P. }
    destruct (edge_ok pre fc rest st E P) as (st1 & E1 & P1). rewrite E1. cbn [bind]. apply (IH (pre ++ [fc])); [rewrite <- app_assoc; exact E|exact P1]. }
  destruct (X (v_factors gm) [] st0 eq_refl) as ([G k] & E & es & K1 & K2 & K3 & K4 & K5 & K6 & K7).
  { exists []. cbn [filter length edgeWeight neighbours]. split; [reflexivity|]. split; [apply repeat_length|]. split; [intros j _; apply nth_repeat|]. split.
    - apply (nth_ext _ _ [] []); [rewrite repeat_length, map_length, seq_length; reflexivity|]. intros v Hv. rewrite repeat_length in Hv. rewrite nth_repeat, nth_map_seq0 by exact Hv. reflexivity.
    - split; [constructor|]. split; [intros a b e []|]. intros _. split; [intros fc a b []|]. exists 0%Qc. intros x _. rewrite qsum_nil. unfold cost. rewrite qsum_nil. ring. }
  rewrite E. cbn [bind]. exists G, es. split; [reflexivity|]. split.
  { split; [|exact K4]. unfold edges_ok. eapply Forall_impl; [|exact K5]. intros [[a b] e] (A1 & A2 & A3). rewrite K2. unfold pm_internal. rewrite <- K1. auto. }
  split; [exact K6|]. intros ND. destruct (K7 ND) as (C1 & K & CK). split; [exact C1|]. exists K. intros x LX. rewrite <- (CK x LX). rewrite (DualDecompProofs.energy_sum gm x : total AdderQ gm x = _). reflexivity.
Qed.
End Graph.
