(** Proofs about AlphaExpansionFusion. *)
From Coq Require Import QArith Qcanon Permutation.
From Verif Require Import Base Values GmView GmViewSpec ShapeSpec AlphaBetaSwapSpec DualDecompModel HoeModel HoeSpec HoeProofs HoeElim HoeReduce HoeProps FuseModel FuseProofs FuseSpec HqpboModel FuseMoves AefModel AefSpec.
Open Scope nat_scope.

(** Marking the changed variables. *)
Lemma mark (f : nat -> bool) (a : nat) : forall idx (label : list nat) c, Forall (fun i => i < length label) idx -> exists label' c',
  foldM (fun st i => if f i then label <- wr (fst st) i a ;; Ret (label, S (snd st)) else Ret st) idx (label, c) = Ret (label', c') /\
  foldM (fun l i => match (if f i then Some a else None) with Some v => wr l i v | None => Ret l end) idx label = Ret label' /\ c <= c' /\ (c' = c -> label' = label).
Proof.
  induction idx as [|i idx IH]; intros label c F; cbn [foldM]; [exists label, c; auto|]. inversion F as [|? ? H1 H2]; subst. cbn [fst snd]. destruct (f i); cbn [bind].
  - rewrite wr_nth by exact H1. cbn [bind]. set (l1 := map _ _). destruct (IH l1 (S c)) as (l' & c' & E & E' & L & _); [unfold l1; rewrite map_length, seq_length; exact H2|]. exists l', c'. split; [exact E|]. split; [exact E'|]. split; lia.
  - apply IH. exact H2.
Qed.

Section Fusion.
Variables (maxi : bool) (g : gmv Qc) (p : aefparam) (k : nat) (solve : qsolver).
Hypothesis W : wf_gmv g.
Hypothesis K : same_labels k g.
Hypothesis NE : v_labels g <> [].
Hypothesis KP : 0 < k.
Hypothesis O : order_at_most 10 g.
Hypothesis PO : param_ok k g p.
Hypothesis QP : qpbo_solver solve.
Let n := length (v_labels g).
Lemma kl v : v < n -> nth v (v_labels g) 0 = k.
Proof. intros H. unfold same_labels in K. rewrite Forall_forall in K. apply K. apply nth_In. exact H. Qed.
Lemma max_k : af_maxState g = k.
Proof.
  unfold af_maxState. unfold same_labels in K. revert K NE. generalize (v_labels g) as l. intros l F N.
  assert (G : forall l m, Forall (fun x => x = k) l -> m = k -> fold_left (fun m k => if m <? k then k else m) l m = k).
  { clear. induction l as [|x l IH]; intros m F E; cbn [fold_left]; [exact E|]. inversion F; subst. apply IH; [assumption|]. destruct (_ <? _); reflexivity. }
  destruct l as [|x l]; [contradiction|]. cbn [fold_left]. inversion F; subst. apply G; [assumption|]. destruct (Nat.ltb_spec 0 k); lia.
Qed.
Lemma labeling_k x : labeling g x <-> length x = n /\ forall v, v < n -> nth v x 0 < k.
Proof.
  rewrite labeling_nth. split; intros [L H]; split; [exact L| |exact L|].
  - intros v Hv. rewrite <- (kl v Hv). apply H. unfold n in Hv. lia.
  - intros v Hv. rewrite (kl v) by (unfold n in *; lia). apply H. unfold n in *; lia.
Qed.
Lemma rd_labels v : v < n -> rd (v_labels g) v = Ret k.
Proof. intros H. rewrite rd_nth by exact H. rewrite kl by exact H. reflexivity. Qed.

(** One move. *)
Lemma move label alpha : labeling g label -> alpha < k -> exists label' c, af_move g solve alpha label = Ret (label', c) /\ labeling g label' /\ expansion_of alpha label label' /\ no_worse g label' label /\ (c = 0 -> label' = label) /\
  (complete_solver solve -> forall y, expansion_of alpha label y -> no_worse g label' y).
Proof.
  intros L HA. pose proof L as L'. apply labeling_k in L'. destruct L' as [LL LN]. set (A := fun v => nth v label 0). set (B := fun _ : nat => alpha).
  assert (LA : forall v, v < n -> rd label v = Ret (A v) /\ A v < nth v (v_labels g) 0). { intros v Hv. split; [apply rd_nth; lia|]. rewrite kl by exact Hv. apply LN. exact Hv. }
  assert (LB : forall v, v < n -> (fun _ : nat => Ret alpha) v = Ret (B v) /\ B v < nth v (v_labels g) 0). { intros v Hv. split; [reflexivity|]. rewrite kl by exact Hv. exact HA. }
  destruct (model_setup g (rd label) (fun _ => Ret alpha) A B W O LA LB) as (h & E & R). unfold af_move, af_numVar. rewrite E. cbn [bind].
  destruct (move_ok 10 n A B (v_factors g) (wf_cliques_ok g W O) solve QP h R) as (h' & q & E' & _ & C & N & P). rewrite E'. cbn [bind].
  set (b0 := fun i => match solve q i with Some true => true | _ => false end).
  rewrite (foldM_ext _ (fun st i => if b0 i then label <- wr (fst st) i alpha ;; Ret (label, S (snd st)) else Ret st)) by (intros st i; unfold b0; destruct (solve q i) as [[|]|]; reflexivity).
  destruct (mark b0 alpha (seq 0 n) label 0) as (label' & c & E1 & E2 & _ & CH). { apply Forall_forall. intros i Hi. apply in_seq in Hi. lia. }
  unfold n in E1. rewrite E1. rewrite <- LL, foldM_set_all in E2. injection E2 as E2. rewrite LL in E2.
  assert (EM : label' = map (mix A B (patch (solve q) (fun _ => false))) (seq 0 n)). { rewrite <- E2. apply map_ext_in. intros i _. unfold mix, patch, b0, A, B. destruct (solve q i) as [[|]|]; reflexivity. }
  clear E2. assert (EA : label = map (mix A B (fun _ => false)) (seq 0 n)). { unfold mix. rewrite <- LL. symmetry. apply map_nth_seq. }
  exists label', c. split; [reflexivity|]. split; [rewrite EM; apply (model_labeling g _ _ A B LA LB)|]. split; [|split; [|split; [exact CH|]]].
  - split; [rewrite EM, map_length, seq_length; lia|]. intros v Hv. rewrite EM, nth_map_seq by lia. unfold mix, A, B. destruct (patch _ _ v); auto.
  - unfold no_worse. rewrite EA, EM. unfold n. rewrite !(model_energy g A B W O). specialize (P (fun _ => false)). qlra.
  - intros CS y [Ly Hy]. assert (Ey : y = map (mix A B (fun v => negb (nth v y 0 =? nth v label 0))) (seq 0 n)).
    { apply (nth_ext _ _ 0 0); [rewrite map_length, seq_length; lia|]. intros v Hv. rewrite nth_map_seq by lia. unfold mix, A, B. destruct (Nat.eqb_spec (nth v y 0) (nth v label 0)) as [Q|Q]; cbn [negb]; [exact Q|]. destruct (Hy v ltac:(lia)); [contradiction|assumption]. }
    unfold no_worse. rewrite Ey, EM. unfold n. rewrite !(model_energy g A B W O). set (b := fun v => negb _). specialize (P b). fold n.
    rewrite (fenergy_ext 10 n A B (v_factors g) (wf_cliques_ok g W O) (patch (solve q) b) (patch (solve q) (fun _ => false))); [qlra|].
    intros v Hv. unfold patch. destruct (solve q v) eqn:S; [reflexivity|]. exfalso. apply (CS q v C ltac:(lia) S).
Qed.

(** The object. *)
Definition ainv (s : aef) : Prop := labeling g (af_label s) /\ Permutation (af_list s) (seq 0 k) /\ af_counter s < k /\ nth (af_counter s) (af_list s) 0 = af_alpha s.
Lemma list_len s : ainv s -> length (af_list s) = k.
Proof. intros (_ & P & _). rewrite (Permutation_length P). apply seq_length. Qed.
Lemma alpha_k s : ainv s -> af_alpha s < k.
Proof. intros I. pose proof (list_len s I) as LL. destruct I as (_ & P & C & <-). assert (H : In (nth (af_counter s) (af_list s) 0) (seq 0 k)) by (apply (Permutation_in _ P); apply nth_In; lia). apply in_seq in H. lia. Qed.
Lemma increment s : ainv s -> exists s', incrementAlpha g s = Ret s' /\ ainv s' /\ af_label s' = af_label s /\ af_list s' = af_list s /\ af_counter s' = (af_counter s + 1) mod k.
Proof.
  intros I. pose proof (list_len s I) as LL. unfold incrementAlpha. rewrite max_k. assert (C : (af_counter s + 1) mod k < k) by (apply Nat.mod_upper_bound; lia).
  rewrite rd_nth by lia. cbn [bind]. eexists. split; [reflexivity|]. split; [|auto]. destruct I as (L & P & _ & _). repeat split; try assumption; apply L.
Qed.

(** Labels that cannot improve the labeling by an expansion. *)
Definition good (x : list nat) (a : nat) : Prop := forall y, expansion_of a x y -> no_worse g x y.
Definition tried (s : aef) (cu : nat) : Prop := cu <= k /\ forall (CS : complete_solver solve) j, 1 <= j -> j <= cu -> good (af_label s) (nth ((af_counter s + (k - j)) mod k) (af_list s) 0).
Lemma tried_step s s' : ainv s -> af_label s' = af_label s -> af_list s' = af_list s -> af_counter s' = (af_counter s + 1) mod k -> (complete_solver solve -> good (af_label s) (af_alpha s)) ->
  forall cu, cu < k -> tried s cu -> tried s' (S cu).
Proof.
  intros I E1 E2 E3 G cu C [_ T]. split; [lia|]. intros CS j H1 H2. rewrite E1, E2, E3. destruct I as (_ & _ & Ck & EA).
  destruct (Nat.eq_dec j 1) as [->|N1].
  - rewrite Nat.add_mod_idemp_l by lia. replace (af_counter s + 1 + (k - 1)) with (af_counter s + 1 * k) by lia. rewrite Nat.mod_add by lia. rewrite Nat.mod_small by lia. rewrite EA. apply G. exact CS.
  - rewrite Nat.add_mod_idemp_l by lia. replace (af_counter s + 1 + (k - j)) with (af_counter s + (k - (j - 1))) by lia. apply (T CS); lia.
Qed.
Lemma tried_all s : ainv s -> tried s k -> complete_solver solve -> forall a, a < k -> good (af_label s) a.
Proof.
  intros I [_ T] CS a Ha. pose proof (list_len s I) as LL. destruct I as (_ & P & C & _). assert (H : In a (af_list s)) by (apply (Permutation_in _ (Permutation_sym P)); apply in_seq; lia).
  destruct (In_nth _ _ 0 H) as (i & Hi & <-). destruct (Nat.lt_ge_cases i (af_counter s)) as [Q|Q].
  - specialize (T CS (af_counter s - i) ltac:(lia) ltac:(lia)). replace (af_counter s + (k - (af_counter s - i))) with (i + 1 * k) in T by lia. rewrite Nat.mod_add, Nat.mod_small in T by lia. exact T.
  - specialize (T CS (af_counter s + k - i) ltac:(lia) ltac:(lia)). replace (af_counter s + (k - (af_counter s + k - i))) with i in T by lia. rewrite Nat.mod_small in T by lia. exact T.
Qed.

Lemma loop stop : forall steps calls s cu ex, ainv s -> tried s cu -> exists s' calls', af_loop g solve stop steps calls s cu ex = Ret (s', calls') /\ ainv s' /\ no_worse g (af_label s') (af_label s) /\ calls <= calls' /\
  (complete_solver solve -> (forall i, stop i = false) -> ex = false -> calls' < calls + steps -> forall a, a < k -> good (af_label s') a).
Proof.
  induction steps as [|steps IH]; intros calls s cu ex I T; cbn [af_loop].
  { exists s, calls. split; [reflexivity|]. split; [exact I|]. split; [unfold no_worse; qlra|]. split; [lia|]. intros; lia. }
  rewrite max_k. destruct (Nat.ltb_spec cu k) as [HC|HC]; cbn [andb].
  2:{ exists s, calls. split; [reflexivity|]. split; [exact I|]. split; [unfold no_worse; qlra|]. split; [lia|]. intros CS _ _ _. apply tried_all; [exact I| |exact CS]. assert (cu = k) by (destruct T; lia). subst cu. exact T. }
  destruct ex; cbn [negb].
  { exists s, calls. split; [reflexivity|]. split; [exact I|]. split; [unfold no_worse; qlra|]. split; [lia|]. intros; discriminate. }
  pose proof (alpha_k s I) as AK. destruct (move (af_label s) (af_alpha s) (proj1 I) AK) as (label & c & E & L & X & NW & CH & B). rewrite E. cbn [bind].
  destruct (increment (mkAef label (af_list s) (af_alpha s) (af_counter s))) as (s1 & E1 & I1 & F1 & F2 & F3). { destruct I as (_ & I2 & I3 & I4). repeat split; try assumption; apply L. }
  rewrite E1. cbn [bind]. cbn [af_label af_list af_counter] in F1, F2, F3.
  set (cu' := if 0 <? c then 0 else S cu).
  assert (NW' : no_worse g (af_label s1) (af_label s)) by (rewrite F1; exact NW).
  destruct (Nat.ltb_spec 0 c) as [Hc|Hc].
  - destruct (IH (S calls) s1 cu' (stop calls) I1) as (s' & calls' & E' & I' & N' & CL & ST). { unfold cu'. split; [lia|]. intros; lia. }
    exists s', calls'. split; [exact E'|]. split; [exact I'|]. split; [unfold no_worse in *; qlra|]. split; [lia|]. intros CS S0 _ HL. apply ST; auto. lia.
  - assert (label = af_label s) by (apply CH; lia). subst label.
    destruct (IH (S calls) s1 cu' (stop calls) I1) as (s' & calls' & E' & I' & N' & CL & ST). { unfold cu'. apply (tried_step s); auto. intros CS y Hy. rewrite <- H. apply B; assumption. }
    exists s', calls'. split; [exact E'|]. split; [exact I'|]. split; [unfold no_worse in *; qlra|]. split; [lia|]. intros CS S0 _ HL. apply ST; auto. lia.
Qed.

(** The start. *)
Lemma zero_labeling : labeling g (repeat 0 n).
Proof. apply labeling_k. rewrite repeat_length. split; [reflexivity|]. intros v Hv. rewrite nth_repeat. exact KP. Qed.
Lemma resize_ok label : label = [] \/ labeling g label -> labeling g (resize_label g label).
Proof.
  unfold resize_label, af_numVar. fold n. intros [->|L].
  - rewrite firstn_nil. cbn [app length]. rewrite Nat.sub_0_r. apply zero_labeling.
  - assert (LL : length label = n) by (apply labeling_k in L; apply L). rewrite LL, Nat.sub_diag. cbn [repeat]. rewrite app_nil_r, <- LL, firstn_all. exact L.
Qed.
Lemma set_labeling label i a : labeling g label -> i < n -> a < k -> exists label', wr label i a = Ret label' /\ labeling g label'.
Proof.
  intros L Hi Ha. apply labeling_k in L. destruct L as [LL L]. rewrite wr_nth by lia. eexists. split; [reflexivity|]. apply labeling_k. rewrite map_length, seq_length. split; [exact LL|].
  intros v Hv. rewrite nth_map_seq by lia. destruct (v =? i); auto.
Qed.
Lemma local_ok label i : fp_init p = LOCALOPT_LABEL -> labeling g label -> i < length (v_factors g) -> exists label', localOptimal_factor maxi g label i = Ret label' /\ labeling g label'.
Proof.
  intros PI L Hi. unfold localOptimal_factor. destruct (nth_error (v_factors g) i) as [fc|] eqn:E; [|apply nth_error_None in E; lia]. unfold rd at 1. rewrite E. cbn [bind].
  destruct (Nat.eqb_spec (length (fst fc)) 1) as [H1|H1]; [|exists label; auto]. pose proof (proj2 PO PI i fc E H1) as Hin.
  assert (FA : forall l, l < k -> factor_at g fc [l] = Ret (snd fc [l])).
  { intros l Hl. apply factor_at_ok. destruct fc as [[|v [|w vs]] fn]; try discriminate H1. cbn [fst]. repeat constructor. rewrite kl; [exact Hl|]. destruct W as [W' _]. rewrite Forall_forall in W'. specialize (W' _ (nth_error_In _ _ E)). destruct W' as [_ W']. cbn in W'. inversion W'; subst; unfold n; assumption. }
  rewrite FA by exact KP. cbn [bind]. rewrite rd_labels by exact Hin. cbn [bind].
  assert (G : forall ls st, Forall (fun l => l < k) ls -> labeling g (fst st) -> exists st', foldM (fun (st : list nat * Qc) l =>
                   v <- factor_at g fc [l] ;;
                   if bopQ maxi v (snd st) then label <- wr (fst st) i l ;; Ret (label, v) else Ret st) ls st = Ret st' /\ labeling g (fst st')).
  { induction ls as [|l ls IH]; intros st F Ls; cbn [foldM]; [exists st; auto|]. inversion F; subst. rewrite FA by assumption. cbn [bind]. destruct (bopQ _ _ _); cbn [bind].
    - destruct (set_labeling (fst st) i l Ls Hin ltac:(assumption)) as (l' & E' & Ll'). rewrite E'. cbn [bind]. apply IH; [assumption|exact Ll'].
    - apply IH; assumption. }
  destruct (G (seq 1 (k - 1)) (label, snd fc [0])) as (st' & E' & L'); [apply Forall_forall; intros l Hl; apply in_seq in Hl; lia|exact L|]. rewrite E'. cbn [bind]. eexists. split; [reflexivity|exact L'].
Qed.
Lemma explicit_ok label l : labeling g label -> exists label', initialLabelExplicit g label l = Ret label' /\ labeling g label' /\ (labeling g l -> label' = l).
Proof.
  intros L. unfold initialLabelExplicit. pose proof L as L0. apply labeling_k in L0. destruct L0 as [LL _]. destruct (Nat.eqb_spec (length l) (length label)) as [E|E].
  2:{ exists label. split; [reflexivity|]. split; [exact L|]. intros H. apply labeling_k in H. destruct H. lia. }
  assert (G : forall ix bad, Forall (fun i => i < n) ix -> foldM (fun bad i => if bad : bool then Ret true else x <- rd l i ;; k <- rd (v_labels g) i ;; Ret (k <=? x)) ix bad = Ret (bad || existsb (fun i => k <=? nth i l 0) ix)).
  { induction ix as [|i ix IH]; intros bad F; cbn [foldM existsb]; [rewrite orb_false_r; reflexivity|]. inversion F; subst. destruct bad; cbn [bind]; [rewrite IH by assumption; reflexivity|]. rewrite rd_nth by lia. cbn [bind]. rewrite rd_labels by assumption. cbn [bind]. rewrite IH by assumption. reflexivity. }
  rewrite G by (apply Forall_forall; intros i Hi; apply in_seq in Hi; lia). cbn [bind orb]. destruct (existsb _ _) eqn:X.
  - exists label. split; [reflexivity|]. split; [exact L|]. intros H. apply existsb_exists in X. destruct X as (i & Hi & X). apply in_seq in Hi. apply Nat.leb_le in X. apply labeling_k in H. destruct H as [_ H]. specialize (H i ltac:(lia)). lia.
  - exists l. split; [reflexivity|]. split; [|reflexivity]. apply labeling_k. split; [lia|]. intros v Hv. destruct (Nat.lt_ge_cases (nth v l 0) k) as [Q|Q]; [exact Q|]. exfalso.
    assert (Y : existsb (fun i => k <=? nth i l 0) (seq 0 (length l)) = true) by (apply existsb_exists; exists v; split; [apply in_seq; lia|apply Nat.leb_le; exact Q]). congruence.
Qed.
Lemma init_ok first label : (first = true /\ label = []) \/ (first = false /\ labeling g label) -> exists x, init_labels maxi g p first label = Ret x /\ labeling g x /\
  match fp_init p with DEFAULT_LABEL => x = repeat 0 n | EXPLICIT_LABEL l => labeling g l -> x = l | _ => True end.
Proof.
  intros C. assert (C' : label = [] \/ labeling g label) by (destruct C as [[_ C]|[_ C]]; auto). pose proof (resize_ok label C') as RO. unfold init_labels. destruct (fp_init p) as [| | |l] eqn:PI.
  - eexists. split; [reflexivity|]. destruct C as [[-> ->]|[-> C]].
    + assert (E : resize_label g [] = repeat 0 n) by (unfold resize_label; rewrite firstn_nil; cbn [app length]; rewrite Nat.sub_0_r; reflexivity). split; [exact RO|exact E].
    + assert (LL : length label = n) by (apply labeling_k in C; apply C). rewrite LL. split; [apply zero_labeling|reflexivity].
  - unfold initialLabelRandom, af_numVar. fold n. rewrite (mapM_Ret _ (fun i => fp_rnd p i mod k)) by (intros i Hi; apply in_seq in Hi; rewrite rd_labels by lia; reflexivity). eexists. split; [reflexivity|]. split; [|exact Logic.I].
    apply labeling_k. rewrite map_length, seq_length. split; [reflexivity|]. intros v Hv. rewrite nth_map_seq by exact Hv. apply Nat.mod_upper_bound. lia.
  - unfold initialLabelLocalOptimal. assert (G : forall ix x, Forall (fun i => i < length (v_factors g)) ix -> labeling g x -> exists x', foldM (localOptimal_factor maxi g) ix x = Ret x' /\ labeling g x').
    { induction ix as [|i ix IH]; intros x F Lx; cbn [foldM]; [exists x; auto|]. inversion F; subst. destruct (local_ok x i PI Lx ltac:(assumption)) as (x' & E & Lx'). rewrite E. cbn [bind]. apply IH; assumption. }
    destruct (G (seq 0 (length (v_factors g))) _ ltac:(apply Forall_forall; intros i Hi; apply in_seq in Hi; lia) RO) as (x' & E & Lx'). exists x'. auto.
  - destruct (explicit_ok _ l RO) as (x & E & Lx & X). exists x. auto.
Qed.
Lemma order_ok l : Permutation (init_order g p l) (seq 0 k).
Proof. unfold init_order. rewrite max_k. destruct PO as [P _]. destruct (fp_order p) as [| |o]; [apply Permutation_refl|exact P|]. rewrite (Permutation_length P), seq_length, Nat.eqb_refl. exact P. Qed.
Lemma restart_ok first label l : (first = true /\ label = []) \/ (first = false /\ labeling g label) -> exists s, (x <- init_labels maxi g p first label ;; let l := init_order g p l in alpha <- rd l 0 ;; Ret (mkAef x l alpha 0)) = Ret s /\ ainv s /\ af_counter s = 0 /\ af_list s = init_order g p l /\
  match fp_init p with DEFAULT_LABEL => af_label s = repeat 0 n | EXPLICIT_LABEL l => labeling g l -> af_label s = l | _ => True end.
Proof.
  intros C. destruct (init_ok first label C) as (x & E & L & X). rewrite E. cbn [bind]. assert (LL : length (init_order g p l) = k) by (rewrite (Permutation_length (order_ok l)); apply seq_length). rewrite rd_nth by lia. cbn [bind].
  eexists. split; [reflexivity|]. split; [|auto]. split; [exact L|]. split; [apply order_ok|]. split; [exact KP|reflexivity].
Qed.
Lemma new_ok : exists s, af_new maxi g p = Ret s /\ ainv s /\ af_counter s = 0 /\ af_list s = init_order g p [] /\
  match fp_init p with DEFAULT_LABEL => af_label s = repeat 0 n | EXPLICIT_LABEL l => labeling g l -> af_label s = l | _ => True end.
Proof.
  unfold af_new. replace (existsb _ _) with false.
  - apply restart_ok. left. auto.
  - symmetry. apply not_true_is_false. intros H. apply existsb_exists in H. destruct H as (c & Hc & H). apply Nat.ltb_lt in H. unfold order_at_most in O. rewrite Forall_forall in O. specialize (O c Hc). unfold clique in *. lia.
Qed.
Lemma reset_ok s : ainv s -> exists s', af_reset maxi g p s = Ret s' /\ ainv s' /\ af_counter s' = 0 /\ af_list s' = init_order g p (af_list s) /\
  match fp_init p with DEFAULT_LABEL => af_label s' = repeat 0 n | EXPLICIT_LABEL l => labeling g l -> af_label s' = l | _ => True end.
Proof. intros I. unfold af_reset. apply restart_ok. right. split; [reflexivity|apply I]. Qed.
Lemma infer_ok stop s : ainv s -> exists s' calls, af_infer g p solve stop s = Ret (s', calls) /\ ainv s' /\ no_worse g (af_label s') (af_label s) /\
  (complete_solver solve -> (forall i, stop i = false) -> calls < fp_steps p -> forall a, a < k -> good (af_label s') a).
Proof.
  intros I. unfold af_infer. destruct (loop stop (fp_steps p) 0 s 0 false I) as (s' & c & E & I' & N & _ & G); [split; [lia|intros; lia]|]. exists s', c. split; [exact E|]. split; [exact I'|]. split; [exact N|]. intros CS S0 HC. apply G; auto.
Qed.
Lemma start_ok s x : ainv s -> labeling g x -> exists s', af_setStart g s x = Ret s' /\ ainv s' /\ af_label s' = x.
Proof.
  intros I L. unfold af_setStart, af_numVar. fold n. assert (LL : length x = n) by (apply labeling_k in L; apply L). rewrite <- LL, (mapM_Ret _ (fun i => nth i x 0)) by (intros i Hi; apply in_seq in Hi; apply rd_nth; lia).
  rewrite map_nth_seq. cbn [bind]. eexists. split; [reflexivity|]. split; [|reflexivity]. split; [exact L|apply I].
Qed.
Lemma run_ok ops : Forall (af_legal g) ops -> exists s, af_run maxi g p solve ops = Ret s /\ ainv s.
Proof.
  intros F. unfold af_run. destruct new_ok as (s & E & I & _). rewrite E. cbn [bind]. clear E. revert s I. induction F as [|o ops Ho _ IH]; intros s I; cbn [foldM]; [exists s; auto|]. destruct o as [stop| |x|x]; cbn [af_step].
  - destruct (infer_ok stop s I) as (s' & c & E & I' & _). rewrite E. cbn [bind]. apply IH. exact I'.
  - destruct (reset_ok s I) as (s' & E & I' & _). rewrite E. cbn [bind]. apply IH. exact I'.
  - destruct (start_ok s x I Ho) as (s' & E & I' & _). rewrite E. cbn [bind]. apply IH. exact I'.
  - cbn [bind]. apply IH. split; [exact Ho|apply I].
Qed.
End Fusion.
