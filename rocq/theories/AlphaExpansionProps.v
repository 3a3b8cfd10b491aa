(** C42: AlphaExpansion never worsens the labeling when pairwise factors are of Potts type, and is globally optimal for
    submodular models with two labels, given a correct max-flow library. *)
From Coq Require Import Permutation.
From Verif Require Import Base Values GmView GmViewSpec ShapeSpec ShapeProofs GmViewProofs GraphCutModel GraphCutSpec GraphCutProofs GraphCutProps
  AlphaBetaSwapModel AlphaBetaSwapSpec AlphaBetaSwapProofs AlphaBetaSwapProps AlphaExpansionModel AlphaExpansionSpec AlphaExpansionProofs.
Local Open Scope Z_scope.

(** An AlphaExpansion object after construction and some calls. *)
Definition aenew (maxi : bool) (g : gmv Z) (p : aeparam) : outcome ae := ae_new maxi g (ap_rnd p) (ap_shuffled p) (ap_init p) (ap_order p).
Definition aerun (maxi : bool) (cut : nat -> list edge -> list bool) (g : gmv Z) (p : aeparam) (ops : list aeop) : outcome ae :=
  s <- aenew maxi g p ;; foldM (aestep maxi cut g p) ops s.
(** What a parameter object must satisfy. *)
Definition aeparam_legal (g : gmv Z) (k : nat) (p : aeparam) : Prop := order_legal k p /\ init_legal g p /\ 0 < ap_scale p.
(** The unary factors come first and are in the order of their variables. *)
Definition unaries_first (g : gmv Z) : Prop :=
  forall i fc, nth_error (v_factors g) i = Some fc -> length (fst fc) = 1%nat -> fst fc = [i].

Section Initial.
Variable maxi : bool.
Variable g : gmv Z.
Variable k : nat.
Hypothesis W : wf_gmv g.
Hypothesis SL : same_labels k g.
Hypothesis NV : (0 < length (v_labels g))%nat.
Local Notation n := (length (v_labels g)).

Lemma k_pos : (0 < k)%nat.
Proof. destruct W as [_ P]. unfold same_labels, positive in *. destruct (v_labels g); [cbn in NV; lia|]. inversion P; inversion SL; subst; auto. Qed.
Lemma k_at : forall i, (i < n)%nat -> nth i (v_labels g) 0%nat = k.
Proof. intros i Hi. unfold same_labels in SL. rewrite Forall_forall in SL. apply SL, nth_In. auto. Qed.

Lemma lo_inner : forall fc i m st0 lab v, In fc (v_factors g) -> (i < length lab)%nat -> (st0 + m <= k)%nat ->
  exists lab' v', foldM (fun (st : list nat * Z) l => v <- fread g fc [l] ;;
      if bopZ maxi v (snd st) then label <- wr (fst st) i l ;; Ret (label, v) else Ret st) (seq st0 m) (lab, v) = Ret (lab', v') /\
    length lab' = length lab /\ (Forall (fun l => (l < k)%nat) lab -> Forall (fun l => (l < k)%nat) lab') /\
    (forall j, j <> i -> nth j lab' 0%nat = nth j lab 0%nat) /\
    (v = snd fc [nth i lab 0%nat] -> (forall l, (l < st0)%nat -> at_least_as_good maxi v (snd fc [l])) ->
      v' = snd fc [nth i lab' 0%nat] /\ forall l, (l < st0 + m)%nat -> at_least_as_good maxi v' (snd fc [l])).
Proof.
  intros fc i. induction m as [|m IH]; intros st0 lab v Hf Hi Hm; cbn [seq foldM].
  { exists lab, v. repeat split; auto. intros l Hl. auto with arith. apply H0. lia. }
  rewrite (fread_ok g k W SL fc [st0] Hf) by (repeat constructor; lia). cbn [bind fst snd]. destruct (bopZ maxi (snd fc [st0]) v) eqn:B.
  - rewrite wr_Ret by auto. cbn [bind]. destruct (IH (S st0) (upd lab i st0) (snd fc [st0]) Hf ltac:(rewrite length_upd; auto) ltac:(lia)) as (lab' & v' & E & L & F & O & S0).
    exists lab', v'. split; auto. rewrite length_upd in L. split; auto. split.
    { intros H. apply F. apply Forall_upd; auto. lia. }
    split. { intros j Hj. rewrite O by auto. apply nth_upd_neq; auto. }
    intros Hv Hl. assert (A : v' = snd fc [nth i lab' 0%nat] /\ forall l, (l < S st0 + m)%nat -> at_least_as_good maxi v' (snd fc [l])).
    { apply S0; [rewrite nth_upd_eq by auto; auto|]. intros l Hl'. destruct (Nat.eq_dec l st0) as [->|]; [apply alag_refl|]. eapply alag_trans; [|apply Hl; lia].
      unfold bopZ, at_least_as_good in *. destruct maxi; lia. }
    destruct A. split; auto. intros l Hl'. apply H0. lia.
  - destruct (IH (S st0) lab v Hf Hi ltac:(lia)) as (lab' & v' & E & L & F & O & S0). exists lab', v'. repeat (split; [assumption|]). intros Hv Hl.
    assert (A : v' = snd fc [nth i lab' 0%nat] /\ forall l, (l < S st0 + m)%nat -> at_least_as_good maxi v' (snd fc [l])).
    { apply S0; auto. intros l Hl'. destruct (Nat.eq_dec l st0) as [->|]; [|apply Hl; lia]. unfold bopZ, at_least_as_good in *. destruct maxi; lia. }
    destruct A. split; auto. intros l Hl'. apply H0. lia.
Qed.
Lemma lo_factor : forall lab i fc, nth_error (v_factors g) i = Some fc -> (length (fst fc) = 1 -> i < n)%nat -> length lab = n ->
  exists lab', localOptimal_factor maxi g lab i = Ret lab' /\ length lab' = n /\ (Forall (fun l => (l < k)%nat) lab -> Forall (fun l => (l < k)%nat) lab') /\
    (forall j, j <> i -> nth j lab' 0%nat = nth j lab 0%nat) /\
    (length (fst fc) = 1%nat -> nth i lab 0%nat = 0%nat -> forall l, (l < k)%nat -> at_least_as_good maxi (snd fc [nth i lab' 0%nat]) (snd fc [l])).
Proof.
  intros lab i fc Hn Hi L. unfold localOptimal_factor. replace (rd (v_factors g) i) with (Ret fc) by (unfold rd; rewrite Hn; auto). cbn [bind]. destruct (Nat.eqb_spec (length (fst fc)) 1) as [U|U].
  2:{ exists lab. repeat split; auto. intros; contradiction. }
  pose proof k_pos. assert (In fc (v_factors g)) by (eapply nth_error_In; eauto). rewrite (fread_ok g k W SL fc [0%nat]) by (auto; repeat constructor; lia). cbn [bind].
  specialize (Hi U). rewrite (rd_nth _ _ _ 0%nat) by auto. rewrite k_at by auto. cbn [bind].
  destruct (lo_inner fc i (k - 1) 1 lab (snd fc [0%nat])) as (lab' & v' & E & L' & F & O & S0); auto; try lia. rewrite E. cbn [bind fst]. exists lab'. split; auto. split; [congruence|]. split; auto. split; auto.
  intros _ Z0 l Hl. destruct S0 as [<- S1]; [rewrite Z0; auto| |apply S1; lia]. intros l' Hl'. assert (l' = 0%nat) by lia. subst. apply alag_refl.
Qed.
Lemma lo_all : forall m st0 lab, (st0 + m <= length (v_factors g))%nat -> (forall i fc, nth_error (v_factors g) i = Some fc -> length (fst fc) = 1 -> i < n)%nat -> length lab = n ->
  exists lab', foldM (localOptimal_factor maxi g) (seq st0 m) lab = Ret lab' /\ length lab' = n /\ (Forall (fun l => (l < k)%nat) lab -> Forall (fun l => (l < k)%nat) lab') /\
    (forall j, (j < st0 \/ st0 + m <= j)%nat -> nth j lab' 0%nat = nth j lab 0%nat) /\
    (forall i fc, (st0 <= i < st0 + m)%nat -> nth_error (v_factors g) i = Some fc -> length (fst fc) = 1%nat -> nth i lab 0%nat = 0%nat -> forall l, (l < k)%nat -> at_least_as_good maxi (snd fc [nth i lab' 0%nat]) (snd fc [l])).
Proof.
  induction m as [|m IH]; intros st0 lab Hm HI L; cbn [seq foldM].
  { exists lab. repeat split; auto. intros; lia. }
  destruct (nth_error (v_factors g) st0) as [fc|] eqn:Hn. 2:{ apply nth_error_None in Hn. lia. }
  destruct (lo_factor lab st0 fc Hn (HI _ _ Hn) L) as (lab1 & E1 & L1 & F1 & O1 & S1). rewrite E1. cbn [bind].
  destruct (IH (S st0) lab1 ltac:(lia) HI L1) as (lab' & E & L' & F & O & S0). exists lab'. split; auto. split; auto. split; auto. split.
  - intros j Hj. rewrite O by lia. apply O1. lia.
  - intros i fc' Hi Hn' U Z0. destruct (Nat.eq_dec i st0) as [->|N].
    + rewrite Hn in Hn'. injection Hn' as <-. rewrite O by lia. auto.
    + apply (S0 i fc'); auto; [lia|]. rewrite O1; auto.
Qed.
Lemma explicit_ok : forall lab l, labeling g lab -> exists lab', initialLabelExplicit g lab l = Ret lab' /\ labeling g lab' /\ (labeling g l -> lab' = l).
Proof.
  intros lab l HL. unfold initialLabelExplicit. rewrite (labeling_length _ g _ HL). destruct (Nat.eqb_spec (length l) n) as [E|E].
  2:{ exists lab. split; auto. split; auto. intros H. apply labeling_length in H. contradiction. }
  assert (G : forall m st0 b, (st0 + m <= n)%nat -> foldM (fun (bad : bool) i => if bad then Ret true else x <- rd l i ;; k <- rd (v_labels g) i ;; Ret (k <=? x)%nat) (seq st0 m) b =
    Ret (b || negb (forallb (fun i => nth i l 0 <? k)%nat (seq st0 m)))).
  { induction m as [|m IH]; intros st0 b Hm; cbn [seq foldM forallb]; [rewrite orb_false_r; auto|]. destruct b; cbn [bind]; [rewrite IH by lia; auto|].
    rewrite !(rd_nth _ _ _ 0%nat) by lia. cbn [bind]. rewrite k_at by lia. rewrite IH by lia. f_equal. cbn [orb]. rewrite Nat.leb_antisym. rewrite negb_andb. auto. }
  rewrite G by lia. cbn [bind orb]. assert (EQ : forallb (fun i => nth i l 0 <? k)%nat (seq 0 (length l)) = true <-> labeling g l).
  { rewrite (same_labeling k g l SL), forallb_forall. split.
    - intros H. split; auto. apply Forall_forall. intros v Hv. apply (In_nth _ _ 0%nat) in Hv. destruct Hv as (i & Hi & <-). apply Nat.ltb_lt, H, in_seq. lia.
    - intros [_ H] i Hi. apply in_seq in Hi. apply Nat.ltb_lt. rewrite Forall_forall in H. apply H, nth_In. lia. }
  destruct (forallb _ _); cbn [negb].
  - exists l. split; auto. split; [apply EQ; auto|auto].
  - exists lab. split; auto. split; auto. intros H. apply EQ in H. discriminate.
Qed.
Lemma resize_id : forall lab, length lab = n -> resize_label g lab = lab.
Proof. intros lab L. unfold resize_label, ae_numVar. rewrite L, Nat.sub_diag, <- L, firstn_all. apply app_nil_r. Qed.
Lemma resize_new : resize_label g [] = repeat 0%nat n.
Proof. unfold resize_label, ae_numVar. rewrite firstn_nil. cbn [app length]. rewrite Nat.sub_0_r. auto. Qed.
Lemma labels_ok : forall p (first : bool) lab, init_legal g p -> (if first then lab = [] else labeling g lab) ->
  exists lab', init_labels maxi g (ap_rnd p) (ap_init p) first lab = Ret lab' /\ labeling g lab' /\
    (ap_init p = DEFAULT_LABEL -> lab' = repeat 0%nat n) /\
    (forall l, ap_init p = EXPLICIT_LABEL l -> labeling g l -> lab' = l) /\
    (first = true -> ap_init p = LOCALOPT_LABEL -> forall i, (i < n)%nat ->
       (forall fc, nth_error (v_factors g) i = Some fc -> length (fst fc) = 1%nat -> forall l, (l < k)%nat -> at_least_as_good maxi (snd fc [nth i lab' 0%nat]) (snd fc [l]))).
Proof.
  intros p first lab HI HL. set (lab0 := if first then repeat 0%nat n else lab).
  assert (L0 : labeling g lab0) by (unfold lab0; destruct first; [apply (zeros_legal g k W SL)|auto]).
  assert (R0 : resize_label g lab = lab0). { unfold lab0. destruct first; [subst; apply resize_new|apply resize_id, labeling_length; auto]. }
  assert (N0 : length lab0 = n) by (apply labeling_length; auto).
  unfold init_labels. rewrite !R0. unfold init_legal in HI. destruct (ap_init p) as [| | |l0] eqn:EI.
  - exists (repeat 0%nat n). split. { f_equal. destruct first; auto; rewrite (labeling_length _ g _ HL); auto. }
    split; [apply (zeros_legal g k W SL)|]. split; auto. split; intros; discriminate.
  - unfold initialLabelRandom, ae_numVar. rewrite (mapM_Ret _ _ _ (fun i => ap_rnd p i mod k)%nat).
    2:{ intros i Hi. apply in_seq in Hi. rewrite (rd_nth _ _ _ 0%nat) by lia. cbn [bind]. rewrite k_at by lia. auto. }
    eexists. split; [reflexivity|]. split. 2:{ split; [|split]; intros; discriminate. }
    apply (same_labeling k g _ SL). split; [rewrite map_length, seq_length; auto|]. apply Forall_forall. intros v Hv. apply in_map_iff in Hv. destruct Hv as (i & <- & _). apply Nat.mod_upper_bound. pose proof k_pos. lia.
  - unfold initialLabelLocalOptimal. destruct (lo_all (length (v_factors g)) 0 lab0 ltac:(lia) HI N0) as (lab' & E & L' & F & O & S0). exists lab'. split; auto.
    split. { apply (same_labeling k g _ SL). split; auto. apply F. apply (same_labeling k g _ SL) in L0. apply L0. }
    split; [intros; discriminate|]. split; [intros; discriminate|]. intros F1 _ i Hi fc Hn U. apply (S0 i fc); auto.
    + assert (i < length (v_factors g))%nat by (apply nth_error_Some; congruence). lia.
    + unfold lab0. rewrite F1. apply nth_repeat.
  - destruct (explicit_ok lab0 l0 L0) as (lab' & E & L' & S0). exists lab'. split; auto. split; auto. split; [intros; discriminate|]. split; [|intros; discriminate]. intros l EQ. injection EQ as <-. auto.
Qed.
Lemma order_ok : forall p l, order_legal k p -> Permutation (init_order g (ap_shuffled p) (ap_order p) l) (seq 0 k).
Proof.
  intros p l H. unfold init_order, order_legal in *. rewrite (maxState_eq g k SL NV). destruct (ap_order p) as [| |o]; auto.
  rewrite (Permutation_length H), seq_length, Nat.eqb_refl. auto.
Qed.
Lemma inv_ok : forall lab l, labeling g lab -> Permutation l (seq 0 k) -> exists alpha, rd l 0 = Ret alpha /\ aeinv g k (mkAe lab l alpha 0).
Proof.
  intros lab l HL HP. pose proof k_pos. destruct (perm_nth g k NV l 0 HP) as [A B]; auto. exists (nth 0 l 0%nat). split; [apply rd_nth; lia|]. repeat split; auto.
Qed.
Lemma new_ok : forall p, second_order g -> order_legal k p -> init_legal g p -> exists s, aenew maxi g p = Ret s /\ aeinv g k s /\
    (ap_init p = DEFAULT_LABEL -> ae_label s = repeat 0%nat n) /\
    (forall l, ap_init p = EXPLICIT_LABEL l -> labeling g l -> ae_label s = l) /\
    (ap_init p = LOCALOPT_LABEL -> forall i, (i < n)%nat ->
       (forall fc, nth_error (v_factors g) i = Some fc -> length (fst fc) = 1%nat -> forall l, (l < k)%nat -> at_least_as_good maxi (snd fc [nth i (ae_label s) 0%nat]) (snd fc [l]))).
Proof.
  intros p SO HO HI. unfold aenew, ae_new. replace (existsb _ _) with false.
  2:{ symmetry. unfold second_order in SO. clear -SO. induction SO as [|fc fs H HF IH]; auto. cbn [existsb]. rewrite IH. replace (2 <? length (fst fc))%nat with false; auto. symmetry; apply Nat.ltb_ge; auto. }
  destruct (labels_ok p true [] HI eq_refl) as (lab & E & L & A & B & C). rewrite E. cbn [bind].
  destruct (inv_ok lab _ L (order_ok p [] HO)) as (al & E1 & I). rewrite E1. cbn [bind]. eexists. split; [reflexivity|]. split; auto. 
Qed.
Lemma reset_ok : forall p s, order_legal k p -> init_legal g p -> aeinv g k s -> exists s', ae_reset maxi g (ap_rnd p) (ap_shuffled p) (ap_init p) (ap_order p) s = Ret s' /\ aeinv g k s' /\
    (ap_init p = DEFAULT_LABEL -> ae_label s' = repeat 0%nat n) /\
    (forall l, ap_init p = EXPLICIT_LABEL l -> labeling g l -> ae_label s' = l).
Proof.
  intros p s HO HI Hs. unfold ae_reset.
  destruct (labels_ok p false (ae_label s) HI (proj1 Hs)) as (lab & E & L & A & B & C). rewrite E. cbn [bind].
  destruct (inv_ok lab _ L (order_ok p (ae_list s) HO)) as (al & E1 & I). rewrite E1. cbn [bind]. eexists. split; [reflexivity|]. split; auto. 
Qed.
End Initial.

Lemma aestart_ok : forall g s x, labeling g x -> ae_setStart g s x = Ret (mkAe x (ae_list s) (ae_alpha s) (ae_counter s)).
Proof.
  intros g s x H. unfold ae_setStart, ae_numVar. rewrite <- (labeling_length _ g x H). rewrite (mapM_Ret _ _ _ (fun i => nth i x 0%nat)).
  - cbn [bind]. f_equal. f_equal. clear H. induction x as [|a x IH]; cbn; auto. f_equal. rewrite <- seq_shift, map_map. auto.
  - intros i Hi. apply in_seq in Hi. apply rd_nth. lia.
Qed.

Section Props.
Variable maxi : bool.
Variable cut : nat -> list edge -> list bool.
Variable g : gmv Z.
Variable k : nat.
Variable p : aeparam.
Hypothesis HC : min_cut_solver cut.
Hypothesis W : wf_gmv g.
Hypothesis SL : same_labels k g.
Hypothesis NV : (0 < length (v_labels g))%nat.
Hypothesis SO : second_order g.
Hypothesis HP : aeparam_legal g k p.

Lemma aerun_ok : forall ops, expandable maxi k g -> Forall (aelegal g) ops -> exists s, aerun maxi cut g p ops = Ret s /\ aeinv g k s.
Proof.
  intros ops EX HO. destruct HP as (P1 & P2 & P3). unfold aerun. destruct (new_ok maxi g k W SL NV p SO P1 P2) as (s0 & E0 & I0 & _). rewrite E0. cbn [bind]. clear E0.
  revert s0 I0. induction HO as [|o ops Ho HO IH]; intros s I; [exists s; auto|]. cbn [foldM]. destruct o as [stop| |x|x]; cbn [aestep].
  - destruct (ae_infer_ok maxi cut g k (ap_infinity p) (ap_scale p) HC W SL SO EX P3 NV stop (ap_steps p) s I) as (s1 & E & A & _). rewrite E. cbn [bind]. auto.
  - destruct (reset_ok maxi g k W SL NV p s P1 P2 I) as (s1 & E & A & _). rewrite E. cbn [bind]. auto.
  - rewrite (aestart_ok g s x Ho). cbn [bind]. apply IH. destruct I as (I1 & I2 & I3 & I4). repeat split; auto.
  - cbn [bind]. apply IH. destruct I as (I1 & I2 & I3 & I4). repeat split; auto.
Qed.

(** When pairwise factors are of Potts type: for every history and every visitor, infer returns and leaves a labeling
    that is not worse than the one before. *)
Theorem C42_infer : forall ops stop, potts_like maxi k g -> Forall (aelegal g) ops ->
  exists s s', aerun maxi cut g p ops = Ret s /\ ae_infer maxi cut g (ap_infinity p) stop (ap_scale p) (ap_steps p) s = Ret s' /\
    labeling g (ae_arg s) /\ labeling g (ae_arg s') /\ at_least_as_good maxi (energy g (ae_arg s')) (energy g (ae_arg s)).
Proof.
  intros ops stop PL HO. apply potts_expandable in PL. destruct (aerun_ok ops PL HO) as (s & E & I).
  destruct (ae_infer_ok maxi cut g k (ap_infinity p) (ap_scale p) HC W SL SO PL (proj2 (proj2 HP)) NV stop (ap_steps p) s I) as (s1 & E1 & A & B & _). exists s, s1. repeat (split; [assumption|]). split; [apply I|]. split; [apply A|auto].
Qed.
(** With two labels and submodular pairwise factors: if two moves are allowed, the labeling found is globally optimal,
    whatever the history. *)
Theorem C42_binary : forall ops stop, k = 2%nat -> swap_submodular maxi k g -> Forall (aelegal g) ops -> (2 <= ap_steps p)%nat -> stop 0%nat = false ->
  exists s s', aerun maxi cut g p ops = Ret s /\ ae_infer maxi cut g (ap_infinity p) stop (ap_scale p) (ap_steps p) s = Ret s' /\ best_labeling maxi g (ae_arg s').
Proof.
  intros ops stop K SS HO HM HF. assert (EX : expandable maxi k g) by (rewrite K in *; apply binary_expandable; auto). destruct (aerun_ok ops EX HO) as (s & E & I).
  destruct (ae_infer_ok maxi cut g k (ap_infinity p) (ap_scale p) HC W SL SO EX (proj2 (proj2 HP)) NV stop (ap_steps p) s I) as (s1 & E1 & A & _ & B). exists s, s1. repeat (split; [assumption|]). apply B; auto.
Qed.
(** The initial labeling: all zero, the given one, or optimal for each unary factor. *)
Theorem C42_initial : exists s, aenew maxi g p = Ret s /\ labeling g (ae_arg s) /\
  (ap_init p = DEFAULT_LABEL -> ae_arg s = repeat 0%nat (length (v_labels g))) /\
  (forall l, ap_init p = EXPLICIT_LABEL l -> labeling g l -> ae_arg s = l) /\
  (ap_init p = LOCALOPT_LABEL -> unaries_first g -> forall fc v, In fc (v_factors g) -> fst fc = [v] ->
     forall l, (l < k)%nat -> at_least_as_good maxi (snd fc [nth v (ae_arg s) 0%nat]) (snd fc [l])).
Proof.
  destruct HP as (P1 & P2 & P3). destruct (new_ok maxi g k W SL NV p SO P1 P2) as (s0 & E0 & I0 & A & B & C). exists s0. split; auto. split; [apply I0|]. split; auto. split; auto.
  intros EI UF fc v Hf Hv l Hl. destruct (In_nth_error _ _ Hf) as [i Hi]. assert (U : length (fst fc) = 1%nat) by (rewrite Hv; auto).
  pose proof (UF i fc Hi U) as E. rewrite Hv in E. injection E as <-. eapply C; eauto. pose proof (factor_vars g W fc Hf) as V. rewrite Hv in V. inversion V; auto.
Qed.
(** setStartingPoint, setState and reset have the effect their names say. *)
Theorem C42_start : forall ops x, potts_like maxi k g -> Forall (aelegal g) ops -> labeling g x ->
  (exists s, aerun maxi cut g p (ops ++ [AStart x]) = Ret s /\ ae_arg s = x) /\
  (exists s, aerun maxi cut g p (ops ++ [AState x]) = Ret s /\ ae_arg s = x) /\
  (exists s, aerun maxi cut g p (ops ++ [AReset]) = Ret s /\ labeling g (ae_arg s) /\
    (ap_init p = DEFAULT_LABEL -> ae_arg s = repeat 0%nat (length (v_labels g))) /\
    (forall l, ap_init p = EXPLICIT_LABEL l -> labeling g l -> ae_arg s = l)).
Proof.
  intros ops x PL HO Hx. destruct (aerun_ok ops (potts_expandable _ _ _ PL) HO) as (s & E & I). unfold aerun in *. destruct (aenew maxi g p) as [s0| | |]; try discriminate E. cbn [bind] in *. rewrite !foldM_app, E. cbn [bind foldM aestep].
  rewrite (aestart_ok g s x Hx). cbn [bind]. split; [eexists; split; reflexivity|]. split; [eexists; split; reflexivity|].
  destruct HP as (P1 & P2 & P3). destruct (reset_ok maxi g k W SL NV p s P1 P2 I) as (s1 & E1 & A & B & C). rewrite E1. cbn [bind]. exists s1. split; auto. split; [apply A|auto].
Qed.
End Props.
(** Models with larger factors are refused. *)
Theorem C42_refused : forall maxi g p, Exists (fun fc : factor => (2 < length (fst fc))%nat) (v_factors g) -> aenew maxi g p = Throw.
Proof.
  intros maxi g p H. unfold aenew, ae_new. replace (existsb _ _) with true; auto. symmetry. apply existsb_exists. apply Exists_exists in H. destruct H as (fc & H1 & H2). exists fc. split; auto. apply Nat.ltb_lt. auto.
Qed.
Print Assumptions C42_infer.
Print Assumptions C42_binary.
Print Assumptions C42_initial.
Print Assumptions C42_start.
Print Assumptions C42_refused.

(** Models that meet the hypotheses. *)
Definition aep (it : initType) (ot : orderType) : aeparam := mkAeParam it ot 1 1000 (fun _ => 0%nat) [] 1000000.
Definition swx_potts : potts_like false 3 swx.
Proof. repeat constructor; try discriminate. intros _. exists 5. split; [cbn; lia|]. split; intros; cbn [snd nth]; [destruct (Nat.eqb_spec a b); [contradiction|auto]|rewrite Nat.eqb_refl; cbn; lia]. Qed.
Example C42_case : wf_gmv swx /\ same_labels 3 swx /\ second_order swx /\ potts_like false 3 swx /\ aeparam_legal swx 3 (aep LOCALOPT_LABEL (EXPLICIT_ORDER [2; 0; 1]%nat)) /\ unaries_first swx /\
  Forall (aelegal swx) [AStart [0; 1]%nat] /\
  (s <- aenew false swx (aep LOCALOPT_LABEL (EXPLICIT_ORDER [2; 0; 1]%nat)) ;; Ret (ae_arg s)) = Ret [0; 2]%nat /\
  (s <- aerun false try_all swx (aep LOCALOPT_LABEL (EXPLICIT_ORDER [2; 0; 1]%nat)) [AStart [0; 1]%nat] ;;
   s <- ae_infer false try_all swx 1000000 (fun _ => false) 1 1000 s ;; Ret (ae_arg s)) = Ret [2; 2]%nat.
Proof.
  destruct swx_ok as (A & B & C & D). repeat (split; [assumption|]). split; [apply swx_potts|]. split.
  { split; [cbn; apply (Permutation_middle [0; 1]%nat [] 2%nat)|]. split; [|cbn; lia]. intros [|[|[|i]]] fc H U; cbn in *; try lia; try (injection H as <-; cbn in *; lia). destruct i; discriminate. }
  split. { intros [|[|[|i]]] fc H U; cbn in *; try (injection H as <-; cbn in *; auto; lia). destruct i; discriminate. }
  split; [repeat constructor; cbn; lia|]. split; vm_compute; reflexivity.
Qed.
Definition aeb : gmv Z := mkGmv [2; 2]%nat
  [ ([0%nat], fun l => nth (nth 0 l 0%nat) [0; 4] 0); ([1%nat], fun l => nth (nth 0 l 0%nat) [3; 0] 0);
    ([0; 1]%nat, fun l => nth (2 * nth 0 l 0 + nth 1 l 0)%nat [0; 5; 3; 1] 0) ].
Example C42_binary_case : wf_gmv aeb /\ same_labels 2 aeb /\ second_order aeb /\ swap_submodular false 2 aeb /\ aeparam_legal aeb 2 (aep DEFAULT_LABEL DEFAULT_ORDER) /\
  (s <- aerun false try_all aeb (aep DEFAULT_LABEL DEFAULT_ORDER) [AStart [0; 1]%nat] ;;
   s <- ae_infer false try_all aeb 1000000 (fun _ => false) 1 1000 s ;; Ret (ae_arg s)) = Ret [0; 0]%nat.
Proof.
  split; [split; cbn; repeat constructor; cbn; lia|]. split; [repeat constructor|]. split; [repeat constructor|]. split.
  { repeat constructor; try discriminate. intros _ a b Ha Hb. cbn [snd nth]. destruct a as [|[|a]], b as [|[|b]]; try lia; cbn; lia. }
  split; [split; [exact I|split; [exact I|cbn; lia]]|vm_compute; reflexivity].
Qed.

(** For pairwise factors that form a metric, infer can leave a labeling that is worse than the one before: auxiliary
    nodes lose the value of pairs of different labels unless all those values are equal. *)
Definition aem : gmv Z := mkGmv [3; 3]%nat
  [ ([0%nat], fun l => nth (nth 0 l 0%nat) [0; 10; -1] 0); ([1%nat], fun l => nth (nth 0 l 0%nat) [10; 0; 20] 0);
    ([0; 1]%nat, fun l => nth (3 * nth 0 l 0 + nth 1 l 0)%nat [0; 1; 5;  1; 0; 5;  5; 5; 0] 0) ].
Theorem C42_metric_refuted : exists g k cut p x s', wf_gmv g /\ same_labels k g /\ second_order g /\ min_cut_solver cut /\ aeparam_legal g k p /\ labeling g x /\
  (exists fc d, v_factors g = firstn 2 (v_factors g) ++ [fc] /\ Forall (fun f : factor => length (fst f) = 1%nat) (firstn 2 (v_factors g)) /\ (forall a b, (a < k)%nat -> (b < k)%nat -> snd fc [a; b] = d a b) /\
    forall a b c, (a < k)%nat -> (b < k)%nat -> (c < k)%nat -> (d a b = 0 <-> a = b) /\ 0 <= d a b /\ d a b = d b a /\ d a c <= d a b + d b c) /\
  (s <- aerun false cut g p [AStart x] ;; ae_infer false cut g (ap_infinity p) (fun _ => false) (ap_scale p) (ap_steps p) s) = Ret s' /\
  energy g x < energy g (ae_arg s').
Proof.
  exists aem, 3%nat, try_all, (mkAeParam DEFAULT_LABEL (EXPLICIT_ORDER [2; 0; 1]%nat) 1 1 (fun _ => 0%nat) [] 1000000), [0; 1]%nat, (mkAe [2; 1] [2; 0; 1] 0 1)%nat.
  split; [split; cbn; repeat constructor; cbn; lia|]. split; [repeat constructor|]. split; [repeat constructor|]. split; [apply C40_solver_exists|].
  split. { split; [cbn; apply (Permutation_middle [0; 1]%nat [] 2%nat)|]. split; [exact I|cbn; lia]. }
  split; [repeat constructor; cbn; lia|]. split.
  - eexists _, (fun a b => nth (3 * a + b)%nat [0; 1; 5;  1; 0; 5;  5; 5; 0] 0). split; [reflexivity|]. split; [repeat constructor|]. split; [reflexivity|].
    intros a b c Ha Hb Hc. destruct a as [|[|[|a]]], b as [|[|[|b]]], c as [|[|[|c]]]; try lia; cbn; lia.
  - split; vm_compute; reflexivity.
Qed.
(** Even for Potts factors the labeling left need not be optimal with respect to expansion moves, although neither the
    visitor nor the step bound ended the search. *)
Definition aeo : gmv Z := mkGmv [3; 3]%nat
  [ ([0%nat], fun l => nth (nth 0 l 0%nat) [0; 20; 1] 0); ([1%nat], fun l => nth (nth 0 l 0%nat) [20; 0; 1] 0);
    ([0; 1]%nat, fun l => if (nth 0 l 0 =? nth 1 l 0)%nat then 0 else 10) ].
Theorem C42_expansion_optimal_refuted : exists g k cut p x s' y, wf_gmv g /\ same_labels k g /\ second_order g /\ potts_like false k g /\ min_cut_solver cut /\ aeparam_legal g k p /\ labeling g x /\
  (s <- aerun false cut g p [AStart x] ;; ae_infer false cut g (ap_infinity p) (fun _ => false) (ap_scale p) (ap_steps p) s) = Ret s' /\
  expansion_of 2 (ae_arg s') y /\ energy g y < energy g (ae_arg s').
Proof.
  exists aeo, 3%nat, try_all, (aep DEFAULT_LABEL DEFAULT_ORDER), [0; 1]%nat, (mkAe [0; 1] [0; 1; 2] 0 0)%nat, [2; 2]%nat.
  split; [split; cbn; repeat constructor; cbn; lia|]. split; [repeat constructor|]. split; [repeat constructor|]. split.
  { repeat constructor; try discriminate. intros _. exists 10. split; [cbn; lia|]. split; intros; cbn [snd nth]; [destruct (Nat.eqb_spec a b); [contradiction|auto]|rewrite Nat.eqb_refl; cbn; lia]. }
  split; [apply C40_solver_exists|]. split; [split; [exact I|split; [exact I|cbn; lia]]|]. split; [repeat constructor; cbn; lia|]. split; [vm_compute; reflexivity|].
  split; [|vm_compute; reflexivity]. split; auto. intros [|[|v]] Hv; cbn in *; try lia; auto.
Qed.
(** The local optimum of the unary factors is found for the wrong variables when the factors are in another order, and
    the constructor writes outside the labels when there are more factors than variables. *)
Theorem C42_local_optimum_refuted :
  (exists g s fc v l, wf_gmv g /\ same_labels 2 g /\ second_order g /\ aenew false g (aep LOCALOPT_LABEL DEFAULT_ORDER) = Ret s /\
    In fc (v_factors g) /\ fst fc = [v] /\ (l < 2)%nat /\ snd fc [l] < snd fc [nth v (ae_arg s) 0%nat]) /\
  (exists g, wf_gmv g /\ same_labels 2 g /\ second_order g /\ aenew false g (aep LOCALOPT_LABEL DEFAULT_ORDER) = Undef).
Proof.
  set (u := fun v a b => ([v], fun l : list nat => nth (nth 0 l 0%nat) [a; b] 0) : factor). set (e := ([0; 1]%nat, fun _ => 0) : factor). split.
  - exists (mkGmv [2; 2]%nat [u 1%nat 3 0; u 0%nat 0 3]), (mkAe [1; 0] [0; 1] 0 0)%nat, (u 1%nat 3 0), 1%nat, 1%nat.
    split; [split; cbn; repeat constructor; cbn; lia|]. split; [repeat constructor|]. split; [repeat constructor|]. split; [vm_compute; reflexivity|]. cbn. repeat split; auto; lia.
  - exists (mkGmv [2; 2]%nat [e; e; u 0%nat 0 3]).
    split; [split; cbn; repeat constructor; cbn; lia|]. split; [repeat constructor|]. split; [repeat constructor|]. vm_compute; reflexivity.
Qed.
(** reset does not restore the state after construction when initial labels come from unary factors: a variable whose
    best label is 0 keeps the label it had. *)
Theorem C42_reset_refuted : exists g k s0 s1, wf_gmv g /\ same_labels k g /\ second_order g /\ unaries_first g /\ aenew false g (aep LOCALOPT_LABEL DEFAULT_ORDER) = Ret s0 /\
  aerun false try_all g (aep LOCALOPT_LABEL DEFAULT_ORDER) [AStart [1%nat]; AReset] = Ret s1 /\ ae_arg s1 <> ae_arg s0.
Proof.
  exists (mkGmv [2]%nat [([0%nat], fun l : list nat => nth (nth 0 l 0%nat) [0; 3] 0)]), 2%nat, (mkAe [0] [0; 1] 0 0)%nat, (mkAe [1] [0; 1] 0 0)%nat.
  split; [split; cbn; repeat constructor; cbn; lia|]. split; [repeat constructor|]. split; [repeat constructor|]. split.
  { intros [|i] fc H U; cbn in *; [injection H as <-; auto|destruct i; discriminate]. }
  split; [vm_compute; reflexivity|]. split; [vm_compute; reflexivity|]. discriminate.
Qed.
(** A model without variables, and a label order of another length than the number of labels, make the constructor read
    a label that does not exist; different numbers of labels make infer do so. *)
Theorem C42_undefined_refuted :
  (forall maxi, aenew maxi (mkGmv [] []) (aep DEFAULT_LABEL DEFAULT_ORDER) = Undef) /\
  (forall maxi g o, second_order g -> length o <> ae_maxState g -> aenew maxi g (aep DEFAULT_LABEL (EXPLICIT_ORDER o)) = Undef) /\
  (exists g s, wf_gmv g /\ second_order g /\ potts_like false 3 g /\ aenew false g (aep DEFAULT_LABEL DEFAULT_ORDER) = Ret s /\ ae_infer false try_all g 1000000 (fun _ => false) 1 1000 s = Undef).
Proof.
  split; [reflexivity|]. split.
  - intros maxi g o SO H. unfold aenew, ae_new. replace (existsb _ _) with false.
    2:{ symmetry. unfold second_order in SO. clear -SO. induction SO as [|fc fs H HF IH]; auto. cbn [existsb]. rewrite IH. replace (2 <? length (fst fc))%nat with false; auto. symmetry; apply Nat.ltb_ge; auto. }
    cbn [ap_init aep init_labels bind ap_order init_order]. destruct (Nat.eqb_spec (length o) (ae_maxState g)); [contradiction|reflexivity].
  - exists (mkGmv [2; 3]%nat [ ([0%nat], fun l => nth (nth 0 l 0%nat) [0; 10] 0); ([1%nat], fun l => nth (nth 0 l 0%nat) [10; 1; 0] 0) ]), (mkAe [0; 0] [0; 1; 2] 0 0)%nat.
    split; [split; cbn; repeat constructor; cbn; lia|]. split; [repeat constructor|]. split; [repeat constructor; discriminate|]. split; vm_compute; reflexivity.
Qed.
Print Assumptions C42_metric_refuted.
Print Assumptions C42_expansion_optimal_refuted.
Print Assumptions C42_local_optimum_refuted.
Print Assumptions C42_reset_refuted.
Print Assumptions C42_undefined_refuted.
