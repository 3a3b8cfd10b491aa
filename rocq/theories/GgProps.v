(** GreedyGremlin. *)
From Coq Require Import Relations Permutation QArith Qcanon.
From Verif Require Import Base Values GmView GmViewSpec GmViewProofs ShapeSpec ShapeProofs AStarSearch GgModel GgSpec GgProofs DualDecompModel FmProps.
Open Scope nat_scope.

Lemma adjacent_iff : forall T (g : gmv T) u v, adjacent g u v = true <-> exists fc, In fc (v_factors g) /\ In u (fst fc) /\ In v (fst fc).
Proof.
  intros T g u v. unfold adjacent. rewrite existsb_exists. split; intros (fc & I & H); exists fc; (split; [exact I|]).
  - apply andb_true_iff in H. rewrite !member_In in H. exact H.
  - apply andb_true_iff. rewrite !member_In. exact H.
Qed.
Lemma adjacent_sym : forall T (g : gmv T) u v, adjacent g u v = true -> adjacent g v u = true.
Proof. intros T g u v. rewrite !adjacent_iff. intros (fc & H1 & H2 & H3). eauto. Qed.
Lemma reached_iff : forall T (g : gmv T) done u, reached g done u = true <-> u = 0 \/ exists w, In w done /\ adjacent g w u = true.
Proof. intros T g done u. unfold reached. rewrite orb_true_iff, Nat.eqb_eq, existsb_exists. reflexivity. Qed.
Lemma firstn_app_le : forall A (l r : list A) k, k <= length l -> firstn k (l ++ r) = firstn k l.
Proof. intros A l r k H. rewrite firstn_app. replace (k - length l) with 0 by lia. cbn. apply app_nil_r. Qed.
Lemma firstn_snoc : forall (l : list nat) k, k < length l -> firstn (S k) l = firstn k l ++ [nth k l 0].
Proof. intros l. induction l as [|a l IH]; intros k H; [cbn in H; lia|]. destruct k as [|k]; [reflexivity|]. cbn [firstn nth app]. f_equal. apply IH. cbn in H. lia. Qed.
Lemma in_firstn_nth : forall (l : list nat) u k, In u (firstn k l) <-> exists j, j < k /\ j < length l /\ nth j l 0 = u.
Proof.
  induction l as [|a l IH]; intros u k; [rewrite firstn_nil; cbn; split; [tauto|intros (j & _ & H & _); lia]|]. destruct k as [|k]; [cbn; split; [tauto|intros (j & H & _); lia]|]. cbn [firstn In]. rewrite IH. split.
  - intros [->|(j & H1 & H2 & H3)]; [exists 0; cbn; repeat split; lia|exists (S j); cbn; repeat split; [lia|lia|exact H3]].
  - intros ([|j] & H1 & H2 & H3); [left; exact H3|right; exists j; cbn in *; repeat split; [lia|lia|exact H3]].
Qed.
Lemma mixed_length : forall x c d, length (mixed x c d) = length x.
Proof. intros. unfold mixed. rewrite map_length, seq_length. reflexivity. Qed.
Lemma mixed_nth : forall x c d v, v < length x -> nth v (mixed x c d) 0 = if member v d then nth v x 0 else nth v c 0.
Proof. intros x c d v H. unfold mixed. apply nth_map_seq_any. exact H. Qed.
Section Props.
Variable T : Type.
Variable OP : oper T.
Variable ACC : accum T.
Variable g : gmv T.
Notation n := (length (v_labels g)).
Hypothesis W : wf_gmv g.
Hypothesis N0 : 0 < n.
Lemma adjacent_lt : forall u v, adjacent g u v = true -> u < n /\ v < n.
Proof. intros u v H. apply adjacent_iff in H. destruct H as (fc & I & H1 & H2). destruct (wf_vars T g W fc I) as [_ LT]. rewrite Forall_forall in LT. auto. Qed.
Lemma start_ok : exists color wait, wr (repeat 0 n) 0 0 = Ret wait /\ wr (repeat false n) 0 true = Ret color /\ forall conf, queue T g (mkGg color wait 0 conf) [0].
Proof.
  eexists _, _. split; [apply wr_Ret; rewrite repeat_length; exact N0|]. split; [apply wr_Ret; rewrite repeat_length; exact N0|]. intros conf. unfold queue. cbn [gg_color gg_wait gg_last]. split; [rewrite length_upd; apply repeat_length|]. split; [|split; [reflexivity|split; [|split]]].
  - destruct n as [|k]; [lia|]. cbn. rewrite Nat.sub_0_r. reflexivity.
  - repeat constructor. intros [].
  - intros v [<-|[]]. exact N0.
  - intros v Hv. destruct v as [|v]; [rewrite nth_upd_eq by (rewrite repeat_length; exact N0); reflexivity|]. rewrite nth_upd_neq by lia. rewrite nth_repeat. reflexivity.
Qed.
Definition G1 (c0 : list nat) (s : gg) (Q : list nat) : Prop :=
  queue T g s Q /\ labeling g (gg_conf s) /\ In 0 Q /\ (forall u, In u Q -> linked g 0 u) /\ forall u, ~ In u Q -> nth u (gg_conf s) 0 = nth u c0 0.
Lemma wait_in : forall s Q first, queue T g s Q -> In 0 Q -> In (nth first (gg_wait s) 0) Q.
Proof.
  intros s Q first (_ & HW & _) I0. rewrite HW. destruct (Nat.lt_ge_cases first (length Q)); [rewrite app_nth1 by assumption; apply nth_In; assumption|]. rewrite app_nth2 by assumption. rewrite nth_repeat. exact I0.
Qed.
Lemma rounds_ok : forall stop c0 k first s Q, first + k <= n -> G1 c0 s Q -> exists s' Q', gg_rounds T OP ACC g stop k first s = Ret s' /\ G1 c0 s' Q'.
Proof.
  intros stop c0. induction k as [|k IH]; intros first s Q HF (HQ & L & I0 & LK & KE); [exists s, Q; repeat split; auto; apply HQ|]. cbn [gg_rounds]. pose proof (wait_in s Q first HQ I0) as IV. pose proof HQ as (_ & _ & _ & _ & LT & _).
  destruct (round_ok T OP ACC g W first s Q _ HQ L ltac:(lia) eq_refl (LT _ IV)) as (s' & ext & l & E & Q' & IQ & C & L' & _). rewrite E. cbn [bind].
  assert (G' : G1 c0 s' (Q ++ ext)).
  { split; [exact Q'|]. split; [exact L'|]. split; [apply in_app_iff; left; exact I0|]. split.
    - intros u I. apply IQ in I. destruct I as [I|A]; [apply LK; exact I|]. eapply rt_trans; [apply LK; exact IV|apply rt_step; exact A].
    - intros u NI. rewrite C. rewrite nth_upd_neq; [apply KE|]; [intros X; apply NI, in_app_iff; left; exact X|intros <-; apply NI, in_app_iff; left; exact IV]. }
  destruct (stop first); [eauto|]. apply (IH (S first) s' _ ltac:(lia) G').
Qed.
(** C69.  infer() ends in a labeling, whatever the visitor does. *)
Theorem C69_runs : forall stop c0, labeling g c0 -> exists x, gg_infer T OP ACC g stop c0 = Ret x /\ labeling g x.
Proof.
  intros stop c0 L. destruct start_ok as (color & wait & E1 & E2 & HQ). unfold gg_infer. rewrite E1, E2. cbn [bind]. destruct (rounds_ok stop c0 n 0 (mkGg color wait 0 c0) [0] ltac:(lia)) as (s & Q & E & G).
  { split; [apply HQ|]. split; [exact L|]. split; [left; reflexivity|]. split; [intros u [<-|[]]; apply rt_refl|reflexivity]. }
  rewrite E. cbn [bind]. eexists. split; [reflexivity|apply G].
Qed.
(** Variables that are not connected with variable 0 keep the label they had. *)
Theorem C69_unconnected : forall stop c0 x v, labeling g c0 -> gg_infer T OP ACC g stop c0 = Ret x -> ~ linked g 0 v -> nth v x 0 = nth v c0 0.
Proof.
  intros stop c0 x v L EX NL. destruct start_ok as (color & wait & E1 & E2 & HQ). unfold gg_infer in EX. rewrite E1, E2 in EX. cbn [bind] in EX. destruct (rounds_ok stop c0 n 0 (mkGg color wait 0 c0) [0] ltac:(lia)) as (s & Q & E & G).
  { split; [apply HQ|]. split; [exact L|]. split; [left; reflexivity|]. split; [intros u [<-|[]]; apply rt_refl|reflexivity]. }
  rewrite E in EX. cbn [bind] in EX. injection EX as <-. destruct G as (_ & _ & _ & LK & KE). apply KE. intros I. apply NL, LK, I.
Qed.
Variable fin : T -> Prop.
Hypothesis OL : op_laws fin OP.
Hypothesis AL : acc_laws fin OP ACC.
Hypothesis F : fin_gmv fin g.
Hypothesis CON : forall v, v < n -> linked g 0 v.
Definition G2 (c0 : list nat) (first : nat) (s : gg) (Q : list nat) : Prop :=
  queue T g s Q /\ labeling g (gg_conf s) /\ nth 0 Q 0 = 0 /\ first <= length Q /\ (forall u, In u Q <-> reached g (firstn first Q) u = true) /\
  (forall u, ~ In u (firstn first Q) -> nth u (gg_conf s) 0 = nth u c0 0) /\
  (forall j, j <= first -> exists m, forall u, reached g (firstn j Q) u = true <-> In u (firstn m Q)) /\
  forall j, j < first -> reached g (firstn j Q) (nth j Q 0) = true /\ best_label OP ACC g (reached g (firstn j Q)) (nth j Q 0) (mixed (gg_conf s) c0 (firstn (S j) Q)).
Lemma closed_all : forall Q, In 0 Q -> NoDup Q -> (forall v, In v Q -> v < n) -> (forall u, In u Q <-> reached g Q u = true) -> length Q = n.
Proof.
  intros Q I0 ND LT CL. assert (A : forall u v, linked g u v -> In u Q -> In v Q).
  { intros u v H. induction H as [u v H| |u v w H1 IH1 H2 IH2]; auto. intros I. apply CL, reached_iff. right. eauto. }
  assert (B : Permutation Q (seq 0 n)). { apply NoDup_Permutation; [exact ND|apply seq_NoDup|]. intros v. rewrite in_seq. split; [intros I; specialize (LT v I); lia|]. intros H. apply (A 0 v); [apply CON; lia|exact I0]. }
  apply Permutation_length in B. rewrite seq_length in B. exact B.
Qed.
Lemma greedy_rounds : forall c0 k first s Q, length c0 = n -> first + k = n -> G2 c0 first s Q -> exists s' Q', gg_rounds T OP ACC g (fun _ => false) k first s = Ret s' /\ G2 c0 n s' Q'.
Proof.
  intros c0 k. induction k as [|k IH]; intros first s Q LC0 HF HG; [rewrite Nat.add_0_r in HF; subst first; exists s, Q; split; [reflexivity|exact HG]|]. pose proof HG as (HQ & L & H0 & LF & RE & KE & BR & BE). pose proof HQ as (_ & HW & HL & ND & LT & _). pose proof (queue_le T g s Q HQ) as LQ.
  assert (LQ1 : 0 < length Q) by lia. assert (I0 : In 0 Q) by (rewrite <- H0; apply nth_In; exact LQ1).
  assert (FL : first < length Q). { destruct (Nat.eq_dec first (length Q)) as [->|]; [|lia]. rewrite firstn_all in RE. pose proof (closed_all Q I0 ND LT RE). lia. }
  cbn [gg_rounds]. assert (EV : nth first (gg_wait s) 0 = nth first Q 0) by (rewrite HW; apply app_nth1; exact FL). set (var := nth first Q 0) in *. assert (IV : In var Q) by (apply nth_In; exact FL).
  destruct (round_ok T OP ACC g W first s Q var HQ L ltac:(lia) EV (LT _ IV)) as (s' & ext & l & E & Q' & IQ & C & L' & B). rewrite E. cbn [bind]. specialize (B fin OL AL F). pose proof (labeling_length T g _ L) as LC. pose proof (labeling_length T g _ L') as LC'.
  assert (NV : forall j, j <= first -> ~ In var (firstn j Q)). { intros j Hj X. apply in_firstn_nth in X. destruct X as (i & Hi & Li & Ei). unfold var in Ei. apply (NoDup_nth Q 0) in Ei; auto. lia. }
  apply (IH (S first) s' (Q ++ ext) LC0 ltac:(lia)). split; [exact Q'|]. split; [exact L'|]. split; [rewrite app_nth1 by exact LQ1; exact H0|]. split; [rewrite app_length; lia|]. rewrite (firstn_app_le _ Q ext (S first)) by lia. rewrite (firstn_snoc Q first FL). fold var.
  assert (RN : forall u, In u (Q ++ ext) <-> reached g (firstn first Q ++ [var]) u = true).
  { intros u. rewrite IQ, RE, !reached_iff. split.
    - intros [[->|(w & I & A)]|A]; [left; reflexivity|right; exists w; split; [apply in_app_iff; left; exact I|exact A]|right; exists var; split; [apply in_app_iff; right; left; reflexivity|exact A]].
    - intros [->|(w & I & A)]; [left; left; reflexivity|]. apply in_app_iff in I. destruct I as [I|[<-|[]]]; [left; right; eauto|right; exact A]. }
  split; [exact RN|]. split; [|split].
  - intros u NI. rewrite C. rewrite nth_upd_neq; [apply KE|]; [intros X; apply NI, in_app_iff; left; exact X|intros <-; apply NI, in_app_iff; right; left; reflexivity].
  - intros j Hj. destruct (Nat.eq_dec j (S first)) as [->|NE].
    + exists (length (Q ++ ext)). intros u. rewrite firstn_all. rewrite (firstn_app_le _ Q ext (S first)) by lia. rewrite (firstn_snoc Q first FL). fold var. symmetry. apply RN.
    + destruct (BR j ltac:(lia)) as [m Hm]. exists (Nat.min m (length Q)). intros u. rewrite (firstn_app_le _ Q ext j) by lia. rewrite (firstn_app_le _ Q ext (Nat.min m (length Q))) by lia. rewrite Hm. destruct (Nat.le_gt_cases m (length Q)); [rewrite Nat.min_l by assumption; reflexivity|]. rewrite Nat.min_r by lia. rewrite firstn_all, firstn_all2 by lia. reflexivity.
  - intros j Hj. rewrite (firstn_app_le _ Q ext j) by lia. rewrite (firstn_app_le _ Q ext (S j)) by lia. rewrite app_nth1 by lia. destruct (Nat.eq_dec j first) as [->|NE].
    + fold var. split; [apply RE; exact IV|]. replace (mixed (gg_conf s') c0 (firstn (S first) Q)) with (gg_conf s').
      * intros a Ha. rewrite !(within_ext T OP g W (reached g (firstn first Q)) (fun u => member u Q)); [apply B; exact Ha| |]; intros u Hu; apply eq_iff_eq_true; rewrite member_In; symmetry; apply RE.
      * apply (nth_ext _ _ 0 0); [rewrite mixed_length; reflexivity|]. intros u Hu. rewrite mixed_nth by exact Hu. destruct (member u (firstn (S first) Q)) eqn:M; [reflexivity|]. assert (NI : ~ In u (firstn first Q ++ [var])) by (unfold var; rewrite <- (firstn_snoc Q first FL); intros X; apply member_In in X; congruence).
        rewrite C. rewrite nth_upd_neq; [apply KE|]; [intros X; apply NI, in_app_iff; left; exact X|intros <-; apply NI, in_app_iff; right; left; reflexivity].
    + destruct (BE j ltac:(lia)) as [R1 B1]. split; [exact R1|]. replace (mixed (gg_conf s') c0 (firstn (S j) Q)) with (mixed (gg_conf s) c0 (firstn (S j) Q)); [exact B1|]. apply (nth_ext _ _ 0 0); [rewrite !mixed_length; lia|]. intros u Hu. rewrite mixed_length in Hu. rewrite !mixed_nth by lia. destruct (member u (firstn (S j) Q)) eqn:M; [|reflexivity]. apply member_In in M. rewrite C. rewrite nth_upd_neq; [reflexivity|]. intros <-. apply (NV (S j)); [lia|exact M].
Qed.
(** In a connected model the variables are fixed one after the other, in an order that begins with variable 0 and reaches the neighbours of the earliest variables first.
    Each gets a best label for its factors among the variables reached so far: with the final labels of those fixed before, and the old labels of the others. *)
Theorem C69_greedy : forall c0 x, labeling g c0 -> gg_infer T OP ACC g (fun _ => false) c0 = Ret x ->
  exists ord, Permutation ord (seq 0 n) /\ nth 0 ord 0 = 0 /\
    (forall k, k <= n -> exists m, forall u, reached g (firstn k ord) u = true <-> In u (firstn m ord)) /\
    forall k, k < n -> reached g (firstn k ord) (nth k ord 0) = true /\
      best_label OP ACC g (reached g (firstn k ord)) (nth k ord 0) (mixed x c0 (firstn (S k) ord)).
Proof.
  intros c0 x L EX. destruct start_ok as (color & wait & E1 & E2 & HQ). unfold gg_infer in EX. rewrite E1, E2 in EX. cbn [bind] in EX.
  destruct (greedy_rounds c0 n 0 (mkGg color wait 0 c0) [0]) as (s & Q & E & G); [apply labeling_length; exact L|reflexivity| |].
  { split; [apply HQ|]. split; [exact L|]. split; [reflexivity|]. split; [lia|]. cbn [firstn]. split; [|split; [reflexivity|split; [|intros; lia]]].
    - intros u. rewrite reached_iff. cbn. split; [intros [<-|[]]; left; reflexivity|intros [->|(w & [] & _)]; left; reflexivity].
    - intros j Hj. exists 1. intros u. replace j with 0 by lia. cbn [firstn]. rewrite reached_iff. cbn. split; [intros [->|(w & [] & _)]; left; reflexivity|intros [<-|[]]; left; reflexivity]. }
  rewrite E in EX. cbn [bind] in EX. injection EX as <-. destruct G as (HQ' & L' & H0 & LF & RE & KE & BR & BE). pose proof HQ' as (_ & _ & _ & ND & LT & _). pose proof (queue_le T g s Q HQ') as LQ.
  exists Q. split; [|split; [exact H0|split; [exact BR|exact BE]]]. apply NoDup_Permutation_bis; [exact ND|rewrite seq_length; lia|]. intros v I. apply in_seq. specialize (LT v I). lia.
Qed.
End Props.
(** Trees: the labels of a variable's parent and of the variable are all it depends on. *)
Lemma within_cond : forall T (OP : oper T) (g : gmv T) k1 k2 v x y,
  (forall fc, In fc (v_factors g) -> In v (fst fc) -> forallb k1 (fst fc) = forallb k2 (fst fc) /\ (forallb k2 (fst fc) = true -> at_vars x (fst fc) = at_vars y (fst fc))) ->
  value_within OP g k1 v x = value_within OP g k2 v y.
Proof.
  intros T OP g k1 k2 v x y H. unfold value_within. apply fold_left_ext_in. intros acc fc I. destruct (member v (fst fc)) eqn:M; [|reflexivity]. apply member_In in M. destruct (H fc I M) as [E1 E2]. rewrite E1. cbn [andb]. destruct (forallb k2 (fst fc)); [|reflexivity]. rewrite E2 by reflexivity. reflexivity.
Qed.
Section Tree.
Variable T : Type.
Variable OP : oper T.
Variable ACC : accum T.
Variable g : gmv T.
Notation n := (length (v_labels g)).
Variables parent depth : nat -> nat.
Hypothesis W : wf_gmv g.
Hypothesis N0 : 0 < n.
Hypothesis TR : rooted_tree g parent depth.
Lemma tree_linked : forall d v, depth v < d -> v < n -> linked g 0 v.
Proof.
  induction d as [|d IH]; intros v H Hv; [lia|]. destruct (Nat.eq_dec v 0) as [->|NE]; [apply rt_refl|]. destruct TR as [T1 _]. destruct (T1 v ltac:(lia)) as (P1 & P2 & P3). eapply rt_trans; [apply (IH (parent v)); [lia|exact P1]|]. apply rt_step. apply adjacent_sym. exact P3.
Qed.
Lemma tree_adj : forall u w, adjacent g u w = true -> u <> w -> (0 < u /\ w = parent u) \/ (0 < w /\ u = parent w).
Proof.
  intros u w H NE. apply adjacent_iff in H. destruct H as (fc & I & Iu & Iw). destruct TR as [_ T2]. destruct (T2 fc I) as (v & [[-> IN]|[Hv IN]]); apply IN in Iu; apply IN in Iw; cbn in Iu, Iw.
  - destruct Iu as [<-|[]], Iw as [<-|[]]. congruence.
  - destruct Iu as [<-|[<-|[]]], Iw as [<-|[<-|[]]]; try congruence; [left|right]; split; auto; lia.
Qed.
(** A variable's parent comes first. *)
Lemma parent_first : forall ord, Permutation ord (seq 0 n) -> nth 0 ord 0 = 0 -> (forall k, k < n -> reached g (firstn k ord) (nth k ord 0) = true) ->
  forall b k, k < b -> k < n -> nth k ord 0 <> 0 -> In (parent (nth k ord 0)) (firstn k ord).
Proof.
  intros ord P H0 R. assert (ND : NoDup ord) by (apply (Permutation_NoDup (Permutation_sym P)), seq_NoDup). pose proof (Permutation_length P) as LO. rewrite seq_length in LO.
  induction b as [|b IH]; intros k Hb Hk NZ; [lia|]. pose proof (R k Hk) as RK. apply reached_iff in RK. destruct RK as [RK|(w & IW & A)]; [contradiction|]. apply in_firstn_nth in IW as IW'. destruct IW' as (j & Hj & Lj & Ej).
  assert (NE : w <> nth k ord 0). { intros X. rewrite <- Ej in X. apply (NoDup_nth ord 0) in X; [lia|exact ND|lia|lia]. }
  destruct (tree_adj _ _ A NE) as [[Hw E]|[Hv E]].
  - assert (J : In (parent (nth j ord 0)) (firstn j ord)) by (apply IH; [lia|lia|rewrite Ej; lia]). rewrite Ej, <- E in J. apply in_firstn_nth in J. destruct J as (i & Hi & Li & Ei). apply (NoDup_nth ord 0) in Ei; [lia|exact ND|lia|lia].
  - rewrite <- E. exact IW.
Qed.
Variable fin : T -> Prop.
Hypothesis OL : op_laws fin OP.
Hypothesis AL : acc_laws fin OP ACC.
Hypothesis F : fin_gmv fin g.
(** On a tree every variable gets a best label given the label of its parent: no other label of [v] is better for the factors of [v] that have no other variables than [v] and its parent. *)
Theorem C69_tree : forall c0 x v, labeling g c0 -> gg_infer T OP ACC g (fun _ => false) c0 = Ret x -> v < n ->
  best_label OP ACC g (fun u => (u =? v) || (negb (v =? 0) && (u =? parent v))) v x.
Proof.
  intros c0 x v L EX Hv. assert (CON : forall v, v < n -> linked g 0 v) by (intros u Hu; apply (tree_linked (S (depth u))); [lia|exact Hu]).
  assert (LX : length x = n). { destruct (C69_runs T OP ACC g W N0 (fun _ => false) c0 L) as (x' & E' & L'). rewrite EX in E'. injection E' as <-. apply (labeling_length T g). exact L'. }
  destruct (C69_greedy T OP ACC g W N0 fin OL AL F CON c0 x L EX) as (ord & P & H0 & _ & B). assert (ND : NoDup ord) by (apply (Permutation_NoDup (Permutation_sym P)), seq_NoDup). pose proof (Permutation_length P) as LO. rewrite seq_length in LO.
  assert (IV : In v ord) by (apply (Permutation_in v (Permutation_sym P)), in_seq; lia). apply (In_nth ord v 0) in IV. destruct IV as (k & Hk & Ek). rewrite LO in Hk. destruct (B k Hk) as [RK BK]. rewrite Ek in *.
  pose proof (parent_first ord P H0 (fun k Hk => proj1 (B k Hk))) as PF.
  assert (MONO : forall j u, j <= k -> reached g (firstn j ord) u = true -> reached g (firstn k ord) u = true).
  { intros j u Hj H. apply reached_iff in H. apply reached_iff. destruct H as [->|(w & I & A)]; [left; reflexivity|]. right. exists w. split; [|exact A]. apply in_firstn_nth in I. destruct I as (i & Hi & Li & Ei). apply in_firstn_nth. exists i. repeat split; auto. lia. }
  assert (POS : forall u, In u (firstn k ord) -> u <> v). { intros u I ->. apply in_firstn_nth in I. destruct I as (i & Hi & Li & Ei). rewrite <- Ek in Ei. apply (NoDup_nth ord 0) in Ei; [lia|exact ND|lia|lia]. }
  set (own := fun u => (u =? v) || (negb (v =? 0) && (u =? parent v))).
  assert (OWN : forall fc, In fc (v_factors g) -> In v (fst fc) -> forallb (reached g (firstn k ord)) (fst fc) = forallb own (fst fc)).
  { intros fc I IV. apply eq_iff_eq_true. rewrite !forallb_forall. split; intros H u Iu; specialize (H u Iu).
    - unfold own. destruct (Nat.eqb_spec u v) as [->|NE]; [reflexivity|]. cbn [orb]. assert (A : adjacent g v u = true) by (apply adjacent_iff; eauto). destruct (tree_adj v u A ltac:(auto)) as [[H1 H2]|[H1 H2]].
      + apply andb_true_iff. split; [apply negb_true_iff, Nat.eqb_neq; lia|apply Nat.eqb_eq; exact H2].
      + exfalso. apply reached_iff in H. destruct H as [->|(w & IW & A2)]; [lia|]. destruct (Nat.eq_dec w u) as [->|NW].
        * (* u was fixed before v, its parent *)
          apply in_firstn_nth in IW. destruct IW as (j & Hj & Lj & Ej). pose proof (PF (S j) j ltac:(lia) ltac:(lia) ltac:(lia)) as J. rewrite Ej, <- H2 in J. apply in_firstn_nth in J. destruct J as (i & Hi & Li & Ei). apply (POS v); [|reflexivity]. apply in_firstn_nth. exists i. repeat split; auto. lia.
        * destruct (tree_adj w u A2 NW) as [[H3 H4]|[H3 H4]].
          -- (* u is the parent of w, fixed before w *)
             apply in_firstn_nth in IW. destruct IW as (j & Hj & Lj & Ej). pose proof (PF (S j) j ltac:(lia) ltac:(lia) ltac:(lia)) as J. rewrite Ej, <- H4 in J. apply in_firstn_nth in J. destruct J as (i & Hi & Li & Ei). pose proof (PF (S i) i ltac:(lia) ltac:(lia) ltac:(lia)) as J2. rewrite Ei, <- H2 in J2. apply in_firstn_nth in J2. destruct J2 as (i2 & Hi2 & Li2 & Ei2). apply (POS v); [|reflexivity]. apply in_firstn_nth. exists i2. repeat split; auto. lia.
          -- apply (POS w IW). congruence.
    - unfold own in H. apply orb_true_iff in H. destruct H as [H|H]; [apply Nat.eqb_eq in H; subst; exact RK|]. apply andb_true_iff in H. destruct H as [H1 H2]. apply negb_true_iff, Nat.eqb_neq in H1. apply Nat.eqb_eq in H2. pose proof (PF (S k) k ltac:(lia) Hk ltac:(lia)) as J. rewrite Ek, <- H2 in J. apply in_firstn_nth in J. destruct J as (i & Hi & Li & Ei). apply (MONO i); [lia|]. rewrite <- Ei. apply B. lia. }
  assert (AT : forall z l fc, In fc (v_factors g) -> forallb own (fst fc) = true -> (forall u, u < n -> In u (firstn (S k) ord) -> u <> v -> nth u z 0 = nth u x 0) -> nth v (upd z v l) 0 = l -> at_vars (upd z v l) (fst fc) = at_vars (upd x v l) (fst fc)).
  { intros z l fc I H HZ HV2. apply at_vars_ext. intros u Iu. rewrite forallb_forall in H. specialize (H u Iu). destruct (wf_vars T g W fc I) as [_ LT]. rewrite Forall_forall in LT. specialize (LT u Iu). destruct (Nat.eq_dec u v) as [->|NE]; [rewrite HV2; symmetry; apply nth_upd_eq; lia|]. rewrite !nth_upd_neq by auto. apply HZ; auto. unfold own in H. rewrite (proj2 (Nat.eqb_neq u v)) in H by exact NE. cbn [orb] in H. apply andb_true_iff in H. destruct H as [H1 H2]. apply negb_true_iff, Nat.eqb_neq in H1. apply Nat.eqb_eq in H2. pose proof (PF (S k) k ltac:(lia) Hk ltac:(lia)) as J. rewrite Ek, <- H2 in J. apply in_firstn_nth in J. destruct J as (i & Hi & Li & Ei). apply in_firstn_nth. exists i. repeat split; auto. }
  assert (MV : forall u, u < n -> In u (firstn (S k) ord) -> nth u (mixed x c0 (firstn (S k) ord)) 0 = nth u x 0). { intros u Hu I. rewrite mixed_nth by lia. rewrite (proj2 (member_In _ _) I). reflexivity. }
  assert (IK : In v (firstn (S k) ord)) by (apply in_firstn_nth; exists k; repeat split; auto; lia).
  assert (VAL : forall l, value_within OP g (reached g (firstn k ord)) v (upd (mixed x c0 (firstn (S k) ord)) v l) = value_within OP g own v (upd x v l)).
  { intros l. apply within_cond. intros fc I IV. split; [apply OWN; assumption|]. intros H. apply AT; auto. apply nth_upd_eq. rewrite mixed_length. lia. }
  intros l Hl. specialize (BK l Hl). rewrite VAL in BK. replace (mixed x c0 (firstn (S k) ord)) with (upd (mixed x c0 (firstn (S k) ord)) v (nth v x 0)) in BK.
  - rewrite VAL in BK. rewrite (upd_same _ x v (nth v x 0)) in BK by (apply nth_error_nth'; lia). exact BK.
  - apply upd_same. rewrite <- (MV v Hv IK). apply nth_error_nth'. rewrite mixed_length. lia.
Qed.
End Tree.
Print Assumptions C69_runs.
Print Assumptions C69_unconnected.
Print Assumptions C69_greedy.
Print Assumptions C69_tree.

(** A model without variables: infer() writes the first entry of empty vectors. *)
Theorem C69_no_variables_refuted : forall T (OP : oper T) ACC facs stop, gg_infer T OP ACC (mkGmv [] facs) stop (gg_new T (mkGmv [] facs)) = Undef.
Proof. reflexivity. Qed.
Print Assumptions C69_no_variables_refuted.
(** The class documentation says that factors with variables that are not fixed yet are ignored.  They are not: a variable counts as soon as it waits.
    In no order of the variables has each a best label among the factors of the variables fixed before. *)
Definition qz (z : Z) : Qc := Q2Qc (inject_Z z).
Definition un (v : nat) (a b : Z) : list nat * (list nat -> Qc) := ([v], fun l => if nth 0 l 0 =? 0 then qz a else qz b).
Definition pw (u v : nat) (w : nat -> nat -> Z) : list nat * (list nat -> Qc) := ([u; v], fun l => qz (w (nth 0 l 0) (nth 1 l 0))).
Definition waits : gmv Qc := mkGmv [2; 2; 2] [un 1 0 1; un 2 1 0; pw 0 1 (fun _ _ => 0%Z); pw 0 2 (fun _ _ => 0%Z); pw 1 2 (fun a b => if (a =? 1) && (b =? 0) then (-9)%Z else 0%Z)].
Lemma perms3 : forall ord, Permutation ord (seq 0 3) -> In ord [[0; 1; 2]; [0; 2; 1]; [1; 0; 2]; [1; 2; 0]; [2; 0; 1]; [2; 1; 0]].
Proof.
  intros ord P. pose proof (Permutation_length P) as L. assert (ND : NoDup ord) by (apply (Permutation_NoDup (Permutation_sym P)), seq_NoDup).
  assert (B : forall v, In v ord -> v < 3) by (intros v I; apply (Permutation_in v P) in I; apply in_seq in I; lia).
  destruct ord as [|a [|b [|c [|d r]]]]; try discriminate. pose proof (B a ltac:(cbn; auto)). pose proof (B b ltac:(cbn; auto)). pose proof (B c ltac:(cbn; auto)).
  inversion ND as [|? ? N1 ND1]; subst. inversion ND1 as [|? ? N2 ND2]; subst. cbn in N1, N2.
  destruct a as [|[|[|a]]], b as [|[|[|b]]], c as [|[|[|c]]]; try lia; cbn; tauto.
Qed.
Theorem C69_fixed_refuted : wf_gmv waits /\ (forall v, v < 3 -> linked waits 0 v) /\ exists x, gg_infer Qc AdderQ MinimizerQ waits (fun _ => false) (gg_new Qc waits) = Ret x /\
  forall ord, Permutation ord (seq 0 3) -> exists k l, k < 3 /\ l < 2 /\
    a_bop MinimizerQ (value_within AdderQ waits (fun u => member u (firstn (S k) ord)) (nth k ord 0) (upd x (nth k ord 0) l)) (value_within AdderQ waits (fun u => member u (firstn (S k) ord)) (nth k ord 0) x) = true.
Proof.
  split; [|split].
  - split; repeat constructor.
  - intros v Hv. destruct v as [|v]; [apply rt_refl|]. apply rt_step. destruct v as [|[|v]]; [reflexivity|reflexivity|lia].
  - exists [0; 1; 0]. split; [vm_compute; reflexivity|]. intros ord P. apply perms3 in P. cbn [In] in P. destruct P as [<-|[<-|[<-|[<-|[<-|[<-|[]]]]]]].
    + exists 1, 0. split; [lia|]. split; [lia|]. vm_compute. reflexivity.
    + exists 1, 1. split; [lia|]. split; [lia|]. vm_compute. reflexivity.
    + exists 0, 0. split; [lia|]. split; [lia|]. vm_compute. reflexivity.
    + exists 0, 0. split; [lia|]. split; [lia|]. vm_compute. reflexivity.
    + exists 0, 1. split; [lia|]. split; [lia|]. vm_compute. reflexivity.
    + exists 0, 1. split; [lia|]. split; [lia|]. vm_compute. reflexivity.
Qed.
Print Assumptions C69_fixed_refuted.
(** Two variables without a common factor: the second is not touched, although another label is better. *)
Definition apart : gmv Qc := mkGmv [2; 2] [un 0 1 0; un 1 1 0].
Theorem C69_apart_refuted : wf_gmv apart /\ exists x, gg_infer Qc AdderQ MinimizerQ apart (fun _ => false) (gg_new Qc apart) = Ret x /\ (total AdderQ apart (upd x 1%nat 1%nat) < total AdderQ apart x)%Qc.
Proof. split; [split; repeat constructor|]. exists [1; 0]. split; vm_compute; reflexivity. Qed.
Print Assumptions C69_apart_refuted.

(** A tree: variable 2 is the child of 1, which is the child of 0, as is 3. *)
Definition tree : gmv Qc := mkGmv [2; 2; 2; 2] [un 0 1 0; pw 0 1 (fun a b => if a =? b then 0%Z else 2%Z); un 1 0 1; pw 1 2 (fun a b => if a =? b then 3%Z else 0%Z); pw 0 3 (fun a b => if a =? b then 0%Z else 1%Z); un 3 0 5].
Definition tree_parent (v : nat) : nat := match v with 2 => 1 | _ => 0 end.
Example C69_ex : wf_gmv tree /\ rooted_tree tree tree_parent (fun v => v) /\ labeling tree (gg_new Qc tree) /\ gg_infer Qc AdderQ MinimizerQ tree (fun _ => false) (gg_new Qc tree) = Ret [1; 1; 0; 0].
Proof.
  split; [split; repeat constructor|]. split; [|split; [repeat constructor|vm_compute; reflexivity]]. split.
  - intros v Hv. cbn in Hv. destruct v as [|[|[|[|v]]]]; try lia; repeat split; cbn; auto; lia.
  - intros fc I. cbn in I. destruct I as [<-|[<-|[<-|[<-|[<-|[<-|[]]]]]]]; [exists 0; left; split; [reflexivity|cbn; intros a Ha; exact Ha]|exists 1|exists 1|exists 2|exists 3|exists 3]; right; (split; [cbn; lia|]); intros a Ha; cbn in *; tauto.
Qed.
Example C69_ex_laws : exists fin, op_laws fin AdderQ /\ acc_laws fin AdderQ MinimizerQ /\ fin_gmv fin tree.
Proof. exists (fun _ => True). split; [exact adderQ_laws|]. split; [exact minimizerQ_laws|]. repeat constructor. Qed.
