(** Proofs for tentacle elimination: the model of a tentacle. *)
From Coq Require Import Sorted Relations Permutation.
From Verif Require Import Base Values GmView GmViewSpec GmViewProofs ShapeSpec FactorGraphModel FactorGraphSpec SubmodelModel SubmodelProps ManipulatorModel MpModel MpSpec DecompForest GmProofs IcmProofs DpProofs ManipulatorProps TentacleModel TentacleSpec TentaclePeel TentacleComp.
#[local] Arguments nth_error : simpl never.

(** ** Positions in a list *)
Fixpoint pos (C : list nat) (v : nat) : nat := match C with [] => 0 | a :: r => if a =? v then 0 else S (pos r v) end.
Lemma pos_nth : forall C v, In v C -> nth_error C (pos C v) = Some v.
Proof.
  induction C as [|a C IH]; intros v []; cbn [pos].
  - subst. rewrite Nat.eqb_refl. auto.
  - destruct (Nat.eqb_spec a v) as [->|]; auto. apply IH. auto.
Qed.
Lemma pos_lt : forall C v, In v C -> pos C v < length C.
Proof. intros C v H. apply nth_error_Some. rewrite pos_nth; auto. discriminate. Qed.
Lemma nth_pos : forall C i v, NoDup C -> nth_error C i = Some v -> pos C v = i.
Proof.
  induction C as [|a C IH]; intros [|i] v ND H; try discriminate; cbn [pos]; apply NoDup_cons_iff in ND; destruct ND as [NI ND].
  - injection H as ->. rewrite Nat.eqb_refl. auto.
  - change (nth_error C i = Some v) in H. destruct (Nat.eqb_spec a v) as [->|]; [exfalso; apply NI; eapply nth_error_In; eauto|]. f_equal. auto.
Qed.
Lemma pos_inj : forall C u v, In u C -> In v C -> pos C u = pos C v -> u = v.
Proof. intros C u v U V E. apply pos_nth in U. apply pos_nth in V. rewrite E in U. congruence. Qed.
Lemma pos_mono : forall C u v, StronglySorted lt C -> In u C -> In v C -> u < v -> pos C u < pos C v.
Proof.
  intros C u v H. induction H as [|a C H IH F]; intros U V L; [destruct U|]. rewrite Forall_forall in F. cbn [pos]. destruct (Nat.eqb_spec a u) as [->|Nu].
  - destruct (Nat.eqb_spec u v); lia.
  - destruct U as [|U]; [contradiction|]. destruct (Nat.eqb_spec a v) as [->|Nv]; [specialize (F u U); lia|]. destruct V as [|V]; [contradiction|]. specialize (IH U V L). lia.
Qed.
Lemma at_vars_pos : forall z C l, (forall v, In v l -> In v C) -> at_vars (at_vars z C) (map (pos C) l) = at_vars z l.
Proof.
  intros z C l H. unfold at_vars. rewrite map_map. apply map_ext_in. intros v Hv. pose proof (pos_nth C v (H v Hv)) as E. erewrite nth_error_nth; [|apply map_nth_error; eauto]. auto.
Qed.
Lemma nat_sort_perm : forall l, Permutation l (nat_sort l).
Proof.
  assert (G : forall x l, Permutation (x :: l) (nat_ins x l)). { intros x l. induction l as [|y l IH]; cbn; auto. destruct (x <=? y); auto. rewrite perm_swap. constructor. auto. }
  induction l as [|x l IH]; cbn; auto. rewrite <- G. constructor. auto.
Qed.
Lemma nat_sort_sorted : forall l, NoDup l -> StronglySorted lt (nat_sort l).
Proof.
  assert (G : forall x l, StronglySorted lt l -> ~ In x l -> StronglySorted lt (nat_ins x l)).
  { intros x l H. induction H as [|y l H IH F]; intros N; cbn. { repeat constructor. } destruct (Nat.leb_spec x y) as [L|L].
    - assert (x < y) by (assert (x <> y) by (intros ->; apply N; left; auto); lia). constructor; [constructor; auto|]. constructor; auto. eapply Forall_impl; [|exact F]. cbn. lia.
    - constructor; [apply IH; intros X; apply N; right; auto|]. apply Forall_forall. intros z Hz. assert (X : In z (x :: l)). { assert (P : Permutation (x :: l) (nat_ins x l)). { clear. induction l as [|y l IH]; cbn; auto. destruct (x <=? y); auto. rewrite perm_swap. constructor. auto. } apply (Permutation_in _ (Permutation_sym P)). auto. }
      destruct X as [<-|X]; auto. rewrite Forall_forall in F. auto. }
  induction l as [|x l IH]; intros ND; cbn; [constructor|]. apply NoDup_cons_iff in ND. destruct ND as [NI ND]. apply G; auto. intros X. apply NI. apply (Permutation_in _ (Permutation_sym (nat_sort_perm l))). auto.
Qed.

Section S.
Variable T : Type.
Variable OP : oper T.
Variable g : gmv T.
Hypothesis W : wf_gmv g.
Variables ef et in_ : list bool.
Variable el : list nat.
Notation n := (length (v_labels g)).
Notation nf := (length (v_factors g)).
Hypothesis LF : length ef = n.
Hypothesis LT : length et = nf.
Hypothesis LI : length in_ = n.
Notation fr := (fr ef).
Notation vars := (vars T g).
Notation fvars := (fvars T g ef).
Notation stf := (stf et).
Notation sshare := (sshare T g ef et).
Hypothesis TI : forall k v, stf k -> In v (fvars k) -> nth v in_ false = true.
(** The variables of the tentacle. *)
Variable C : list nat.
Hypothesis SC : StronglySorted lt C.
Hypothesis FC : forall v, In v C -> fr v = true.
Hypothesis CC : forall v k u, In v C -> stf k -> In v (fvars k) -> In u (fvars k) -> In u C.

Lemma C_nodup : NoDup C.
Proof. clear - SC. induction SC as [|a l H IH F]; constructor; auto. intros I. rewrite Forall_forall in F. specialize (F a I). lia. Qed.
Lemma C_lt : forall v, In v C -> v < n.
Proof. intros v H. apply (fr_lt T g ef LF). auto. Qed.

Lemma number_ok : forall tt, length tt = n -> exists tt', number_vars C tt = Ret tt' /\ length tt' = n /\ forall v, In v C -> nth v tt' 0 = pos C v.
Proof.
  intros tt LTT. unfold number_vars.
  destruct (foldM_pre nat (list nat) (fun pre tt' => length tt' = n /\ forall i v, In i pre -> nth_error C i = Some v -> nth v tt' 0 = i) (fun tt i => v <- rd C i ;; wr tt v i) (seq 0 (length C)) tt) as (tt' & E & L & H).
  - split; auto. intros i v [].
  - intros pre i post s ES [L H]. assert (Hi : i < length C) by (assert (In i (seq 0 (length C))) by (rewrite ES; apply in_elt); rewrite in_seq in *; lia).
    destruct (nth_error_lt _ _ _ Hi) as (v & EV). rewrite (rd_Ret _ _ _ _ EV). cbn [bind]. assert (IV : In v C) by (eapply nth_error_In; eauto). pose proof (C_lt v IV). rewrite wr_Ret by lia. eexists. split; [reflexivity|]. split; [rewrite length_upd; auto|].
    intros j u Hj EU. destruct (Nat.eq_dec v u) as [->|N].
    + rewrite nth_upd_eq by lia. rewrite <- (nth_pos C i u C_nodup EV). apply (nth_pos C j u C_nodup EU).
    + rewrite nth_upd_neq by auto. apply in_app_iff in Hj. destruct Hj as [Hj|[<-|[]]]; auto. congruence.
  - exists tt'. split; auto. split; auto. intros v Hv. apply H; [|apply pos_nth; auto]. apply in_seq. pose proof (pos_lt C v Hv). lia.
Qed.

(** The model of a tentacle: factor [k] of the model becomes a factor of its free variables. *)
Definition gmt_factor (k : nat) (e : list nat * (list nat -> T)) : Prop :=
  exists fc, nth_error (v_factors g) k = Some fc /\ fst e = map (pos C) (fvars k) /\ snd e = (fun l => snd fc (merge ef el (fst fc) l)).
Variable hasRoot : bool.
Variable tent0 : list bool.
Hypothesis LN : length tent0 = nf.
Variable tt : list nat.
Hypothesis LTT : length tt = n.
Hypothesis TT : forall v, In v C -> nth v tt 0 = pos C v.
Record ginv (K : list nat) (st : list bool * list bool * list (list nat * (list nat -> T))) : Prop := {
  gi_nd : NoDup K;
  gi_K : forall k, In k K -> stf k /\ exists v, In v C /\ In v (fvars k);
  gi_ltf : length (fst (fst st)) = nf; gi_lt : length (snd (fst st)) = nf;
  gi_tf : forall k, nth k (fst (fst st)) false = nth k et false && negb (mem k K);
  gi_t : forall k, nth k (snd (fst st)) false = if mem k K then hasRoot else nth k tent0 false;
  gi_fs : Forall2 gmt_factor K (snd st) }.

Lemma free_part_ok : forall k, (forall u, In u (fvars k) -> In u C) -> stf k -> free_part ef in_ tt (vars k) = Ret (map (pos C) (fvars k)).
Proof.
  intros k HC K. unfold free_part.
  destruct (foldM_pre nat (list nat) (fun pre l => l = map (pos C) (filter fr pre)) (fun l v => b <- rd ef v ;; if b : bool then Ret l else c <- rd in_ v ;; if c : bool then i <- rd tt v ;; Ret (l ++ [i]) else Ret l) (vars k) []) as (l & E & H); auto.
  - intros pre v post s ES ->. assert (IV : In v (vars k)) by (rewrite ES; apply in_elt). destruct (vars_lt T g W k v IV) as [Hv _]. rewrite (rd_fix_ T g ef LF v Hv). cbn [bind]. rewrite filter_snoc. destruct (fr v) eqn:F; cbn [negb].
    + assert (IF : In v (fvars k)) by (apply fvars_In; auto). rewrite (rd_nth _ in_ v false) by lia. cbn [bind]. rewrite (TI k v K IF). rewrite (rd_nth _ tt v 0) by lia. cbn [bind]. eexists. split; [reflexivity|]. rewrite map_app. cbn [map]. rewrite TT by auto. auto.
    + exists (map (pos C) (filter fr pre)). rewrite app_nil_r. auto.
  - rewrite E, H. auto.
Qed.
Lemma fvars_sorted : forall k, StronglySorted lt (fvars k).
Proof.
  intros k. unfold TentaclePeel.fvars. pose proof (vars_sorted T g W k) as H. induction H as [|a l H IH F]; cbn; [constructor|]. destruct (fr a); auto. constructor; auto. apply Forall_forall. intros x Hx. apply filter_In in Hx. rewrite Forall_forall in F. apply F. tauto.
Qed.
Lemma pos_sorted : forall l, StronglySorted lt l -> (forall u, In u l -> In u C) -> StronglySorted lt (map (pos C) l).
Proof.
  intros l H. induction H as [|a l H IH F]; intros HC; cbn [map]; constructor; [apply IH; intros; apply HC; right; auto|]. apply Forall_forall. intros x Hx. apply in_map_iff in Hx. destruct Hx as (u & <- & Hu). rewrite Forall_forall in F. apply pos_mono; auto; [apply HC; left; auto|apply HC; right; auto].
Qed.
Lemma gstep_ok : forall K st k v, ginv K st -> In v C -> In k (v_adj T g v) ->
  exists K' st', tent_factor T g ef el in_ tt (length C) hasRoot st k = Ret st' /\ ginv K' st' /\ (forall j, In j K -> In j K') /\ (stf k -> In k K').
Proof.
  intros K ((tf & tn) & fs) k v [G1 G2 G3 G4 G5 G6 G7] IC IA. cbn [fst snd] in *. apply (adj_In T g ef LF) in IA. destruct (vars_lt T g W k v IA) as [Hv Hk].
  assert (IF : In v (fvars k)) by (apply fvars_In; auto). unfold tent_factor. rewrite (rd_nth _ tf k false) by lia. cbn [bind]. rewrite G5. destruct (nth k et false) eqn:K0; cbn [andb].
  2:{ exists K, (tf, tn, fs). split; auto. split; [constructor; auto|]. split; auto. intros X. unfold TentacleComp.stf in X. congruence. }
  destruct (mem k K) eqn:M; cbn [negb].
  { exists K, (tf, tn, fs). split; auto. split; [constructor; auto|]. split; auto. intros _. apply mem_In; auto. }
  rewrite wr_Ret by lia. cbn [bind]. rewrite wr_Ret by lia. cbn [bind]. destruct (nth_error_lt _ _ _ Hk) as (fc & EF). rewrite (rd_Ret _ _ _ _ EF). cbn [bind].
  assert (EV : fst fc = vars k) by (unfold TentaclePeel.vars; rewrite EF; auto). assert (HC : forall u, In u (fvars k) -> In u C) by (intros u Hu; apply (CC v k u); auto).
  rewrite EV, free_part_ok by auto. cbn [bind]. rewrite increasing_ok.
  - exists (K ++ [k]). eexists. split; [reflexivity|]. split; [|split; [intros; apply in_or_app; auto|intros; apply in_or_app; cbn; auto]].
    assert (MA : forall j, mem j (K ++ [k]) = mem j K || (j =? k)). { intros j. rewrite mem_app. cbn [mem existsb]. rewrite orb_false_r. auto. }
    constructor; cbn [fst snd]; rewrite ?length_upd; auto.
    + apply NoDup_app_intro; auto. { repeat constructor. cbn. tauto. } intros x X [<-|[]]. apply mem_false in M. auto.
    + intros j Hj. apply in_app_iff in Hj. destruct Hj as [Hj|[<-|[]]]; auto. split; [exact K0|]. eauto.
    + intros j. rewrite MA. destruct (Nat.eqb_spec j k) as [->|N]; [rewrite nth_upd_eq by lia; rewrite orb_true_r, andb_false_r; auto|rewrite nth_upd_neq, orb_false_r by auto; auto].
    + intros j. rewrite MA. destruct (Nat.eqb_spec j k) as [->|N]; [rewrite nth_upd_eq by lia; rewrite orb_true_r; auto|rewrite nth_upd_neq, orb_false_r by auto; auto].
    + apply Forall2_app; auto. constructor; auto. exists fc. rewrite EV. auto.
  - apply pos_sorted; auto. apply fvars_sorted.
  - apply Forall_forall. intros x Hx. apply in_map_iff in Hx. destruct Hx as (u & <- & Hu). apply pos_lt. auto.
  - auto.
Qed.
Lemma gsteps_ok : forall v ks K st, ginv K st -> In v C -> (forall k, In k ks -> In k (v_adj T g v)) ->
  exists K' st', foldM (tent_factor T g ef el in_ tt (length C) hasRoot) ks st = Ret st' /\ ginv K' st' /\ (forall j, In j K -> In j K') /\ (forall k, In k ks -> stf k -> In k K').
Proof.
  intros v ks. induction ks as [|k ks IH]; intros K st G IC H. { exists K, st. split; auto. split; auto. split; auto. intros k []. }
  destruct (gstep_ok K st k v G IC) as (K1 & st1 & E1 & G1 & M1 & A1); [apply H; left; auto|]. cbn [foldM]. rewrite E1. cbn [bind].
  destruct (IH K1 st1 G1 IC) as (K2 & st2 & E2 & G2 & M2 & A2); [intros; apply H; right; auto|]. exists K2, st2. split; auto. split; auto. split; auto. intros j [<-|Hj] X; auto.
Qed.
Theorem gmt_ok : exists K st, foldM (fun st v => foldM (tent_factor T g ef el in_ tt (length C) hasRoot) (v_adj T g v) st) C (et, tent0, []) = Ret st /\ ginv K st /\
  (forall k v, stf k -> In v C -> In v (fvars k) -> In k K).
Proof.
  assert (G : forall l K st, ginv K st -> (forall v, In v l -> In v C) -> exists K' st', foldM (fun st v => foldM (tent_factor T g ef el in_ tt (length C) hasRoot) (v_adj T g v) st) l st = Ret st' /\ ginv K' st' /\
    (forall j, In j K -> In j K') /\ (forall k v, stf k -> In v l -> In v (fvars k) -> In k K')).
  { induction l as [|v l IH]; intros K st G H. { exists K, st. split; auto. split; auto. split; auto. intros k v _ []. }
    destruct (gsteps_ok v (v_adj T g v) K st G) as (K1 & st1 & E1 & G1 & M1 & A1); auto; [apply H; left; auto|]. cbn [foldM]. rewrite E1. cbn [bind].
    destruct (IH K1 st1 G1) as (K2 & st2 & E2 & G2 & M2 & A2); [intros; apply H; right; auto|]. exists K2, st2. split; auto. split; auto. split; auto.
    intros k u X [<-|Hu] I; [|eauto]. apply M2. apply A1; auto. apply (adj_In T g ef LF). apply fvars_In in I. tauto. }
  destruct (G C [] (et, tent0, [])) as (K & st & E & I & _ & A); auto.
  - constructor; cbn [fst snd]; auto; try constructor; intros; cbn [mem existsb]; rewrite ?andb_true_r; auto; try contradiction.
  - exists K, st. auto.
Qed.

(** ** What the model of a tentacle means *)
Variable K : list nat.
Hypothesis NK : NoDup K.
Hypothesis HK : forall k, In k K <-> stf k /\ exists v, In v C /\ In v (fvars k).
Variable fs : list (list nat * (list nat -> T)).
Hypothesis FS : Forall2 gmt_factor K fs.
Notation gmt := (mkGmv (map (fun v => nth v (v_labels g) 0) C) fs).

Lemma K_in_C : forall k u, In k K -> In u (fvars k) -> In u C.
Proof. intros k u Hk Hu. apply HK in Hk. destruct Hk as (A & v & B & D). apply (CC v k u); auto. Qed.
Lemma merge_ok : forall z vis, (forall v, In v vis -> fr v = false -> nth v z 0 = nth v el 0) -> (forall v, In v vis -> v < n) -> merge ef el vis (at_vars z (filter fr vis)) = at_vars z vis.
Proof.
  intros z vis. induction vis as [|v vis IH]; intros H B; auto. cbn [merge filter at_vars map]. assert (Bv : v < n) by (apply B; left; auto).
  assert (E : nth v ef false = negb (fr v)). { unfold TentaclePeel.fr. rewrite negb_involutive. apply nth_indep. lia. } rewrite E.
  assert (IHx : merge ef el vis (at_vars z (filter fr vis)) = at_vars z vis) by (apply IH; intros; [apply H; auto; right; auto|apply B; right; auto]).
  destruct (fr v) eqn:F; cbn [negb map].
  - f_equal. exact IHx.
  - f_equal; [symmetry; apply H; auto; left; auto|exact IHx].
Qed.
(** A factor of the model of the tentacle has the value of the factor it comes from. *)
Lemma gmt_value : forall k e z, In k K -> gmt_factor k e -> (forall v, In v (vars k) -> fr v = false -> nth v z 0 = nth v el 0) ->
  snd e (at_vars (at_vars z C) (fst e)) = val T OP g k z.
Proof.
  intros k e z Hk (fc & EF & E1 & E2) HZ. unfold val. rewrite EF, E1, E2. f_equal. assert (EV : fst fc = vars k) by (unfold TentaclePeel.vars; rewrite EF; auto). rewrite EV.
  rewrite at_vars_pos by (intros; eapply K_in_C; eauto). apply merge_ok; auto. intros v Hv. apply (vars_lt T g W k v Hv).
Qed.
Lemma gmt_val : forall z i k, nth_error K i = Some k -> (forall v, In v (vars k) -> fr v = false -> nth v z 0 = nth v el 0) -> val T OP gmt i (at_vars z C) = val T OP g k z.
Proof.
  intros z i k EK HZ. destruct (Forall2_nth_l _ _ _ _ _ _ _ FS EK) as (e & Ee & Fe). unfold val at 1. cbn [v_factors]. rewrite Ee. apply gmt_value; auto. eapply nth_error_In; eauto.
Qed.
Lemma gmt_wf : wf_gmv gmt.
Proof.
  destruct W as [_ PL]. split; cbn [v_labels v_factors].
  - apply Forall_forall. intros e He. apply In_nth_error in He. destruct He as (i & Ee). destruct (GmProofs.Forall2_nth_r _ _ _ _ _ _ _ FS Ee) as (k & EK & (fc & EF & E1 & E2)). rewrite E1, map_length. apply nth_error_In in EK. split.
    + apply pos_sorted; [apply fvars_sorted|]. intros; eapply K_in_C; eauto.
    + apply Forall_forall. intros x Hx. apply in_map_iff in Hx. destruct Hx as (u & <- & Hu). apply pos_lt. eapply K_in_C; eauto.
  - apply Forall_forall. intros x Hx. apply in_map_iff in Hx. destruct Hx as (v & <- & Hv). unfold positive in PL. rewrite Forall_forall in PL. apply PL. apply nth_In. apply C_lt; auto.
Qed.
Lemma gmt_order : forall D, order_at_most D g -> order_at_most D gmt.
Proof.
  intros D HD. apply Forall_forall. intros e He. cbn [v_factors] in He. apply In_nth_error in He. destruct He as (i & Ee). destruct (GmProofs.Forall2_nth_r _ _ _ _ _ _ _ FS Ee) as (k & EK & (fc & EF & E1 & E2)).
  unfold order_at_most in HD. rewrite Forall_forall in HD. specialize (HD fc (nth_error_In _ _ EF)). rewrite E1, map_length. unfold TentaclePeel.fvars, TentaclePeel.vars. rewrite EF. apply Nat.le_trans with (length (fst fc)); auto. clear. induction (fst fc) as [|a l IH]; cbn [filter length]; [lia|]. destruct (TentaclePeel.fr ef a); cbn [length]; lia.
Qed.
(** Every labeling of the tentacle comes from one of the model. *)
Definition spread (z : list nat) (w : list nat) : list nat := map (fun v => if mem v C then nth (pos C v) w 0 else nth v z 0) (seq 0 n).
Lemma nth_spread : forall z w v, v < n -> nth v (spread z w) 0 = if mem v C then nth (pos C v) w 0 else nth v z 0.
Proof. intros z w v H. unfold spread. erewrite nth_error_nth; [|apply map_nth_error; rewrite nth_error_nth' with (d := 0) by (rewrite seq_length; auto); rewrite seq_nth by auto; reflexivity]. auto. Qed.
Lemma spread_C : forall z w, length w = length C -> at_vars (spread z w) C = w.
Proof.
  intros z w LW. apply nth_error_ext. intros i. unfold at_vars. destruct (Nat.lt_ge_cases i (length C)) as [H|H].
  - destruct (nth_error_lt _ _ _ H) as (v & EV). rewrite (map_nth_error _ _ _ EV). assert (IV : In v C) by (eapply nth_error_In; eauto). rewrite nth_spread by (apply C_lt; auto). rewrite (proj2 (mem_In v C) IV), (nth_pos C i v C_nodup EV). symmetry. apply nth_error_nth'. lia.
  - rewrite !(proj2 (nth_error_None _ _)); auto; rewrite ?map_length; lia.
Qed.
Lemma gmt_labeling : forall z, labeling g z -> labeling gmt (at_vars z C).
Proof.
  intros z HZ. unfold labeling in *. cbn [v_labels]. unfold at_vars, in_shape. assert (G : forall l, (forall v, In v l -> v < n) -> Forall2 lt (map (fun v => nth v z 0) l) (map (fun v => nth v (v_labels g) 0) l)).
  { induction l as [|v l IH]; intros H; cbn [map]; constructor; [apply Forall2_nth_lt; auto; apply H; left; auto|]. apply IH. intros; apply H; right; auto. }
  apply G. apply C_lt.
Qed.
Lemma spread_labeling : forall z w, labeling g z -> labeling gmt w -> labeling g (spread z w).
Proof.
  intros z w HZ HW. assert (LW : length w = length C) by (apply GmProofs.Forall2_len in HW; cbn in HW; rewrite map_length in HW; auto). apply Forall2_nth_intro.
  - unfold spread. rewrite map_length, seq_length. auto.
  - unfold spread at 1. rewrite map_length, seq_length. intros v Hv. rewrite nth_spread by auto. destruct (mem v C) eqn:M; [|apply Forall2_nth_lt; auto]. apply mem_In in M.
    unfold labeling, in_shape in HW. cbn [v_labels] in HW. pose proof (Forall2_nth_lt _ _ (pos C v) HW) as X. rewrite map_length in X. specialize (X (pos_lt C v M)). erewrite (nth_error_nth (map _ C)) in X; [|apply map_nth_error; apply pos_nth; auto]. auto.
Qed.

Section Fin.
Variable fin : T -> Prop.
Hypothesis FG : fin_gmv fin g.
(** There is a labeling with the fixed labels. *)
Hypothesis EL : forall v, v < n -> fr v = false -> nth v el 0 < nth v (v_labels g) 0.
Definition base : list nat := map (fun v => if fr v then 0 else nth v el 0) (seq 0 n).
Lemma nth_base : forall v, v < n -> nth v base 0 = if fr v then 0 else nth v el 0.
Proof. intros v H. unfold base. erewrite nth_error_nth; [|apply map_nth_error; rewrite nth_error_nth' with (d := 0) by (rewrite seq_length; auto); rewrite seq_nth by auto; reflexivity]. auto. Qed.
Lemma base_labeling : labeling g base.
Proof.
  destruct W as [_ PL]. unfold positive in PL. rewrite Forall_forall in PL. apply Forall2_nth_intro; unfold base at 1; rewrite map_length, seq_length; auto. intros v Hv. rewrite nth_base by auto. destruct (fr v) eqn:F; auto. apply PL. apply nth_In. auto.
Qed.
Lemma spread_base : forall w v, v < n -> fr v = false -> nth v (spread base w) 0 = nth v el 0.
Proof. intros w v Hv F. rewrite nth_spread by auto. destruct (mem v C) eqn:M; [apply mem_In in M; rewrite FC in F by auto; discriminate|]. rewrite nth_base, F by auto. auto. Qed.
Lemma gmt_length : forall w, labeling gmt w -> length w = length C.
Proof. intros w HW. apply GmProofs.Forall2_len in HW. cbn in HW. rewrite map_length in HW. auto. Qed.
Lemma gmt_fin : fin_gmv fin gmt.
Proof.
  apply Forall_forall. cbn [v_factors]. intros e He w HW. apply In_nth_error in He. destruct He as (i & Ee). destruct (GmProofs.Forall2_nth_r _ _ _ _ _ _ _ FS Ee) as (k & EK & Fk).
  pose proof (gmt_value k e (spread base w) ltac:(eapply nth_error_In; eauto) Fk) as H. rewrite spread_C in H by (apply gmt_length; auto). destruct Fk as (fc & EF & E1 & E2).
  rewrite H by (intros v Hv F; apply spread_base; auto; apply (vars_lt T g W k v Hv)). unfold val. rewrite EF. unfold fin_gmv in FG. rewrite Forall_forall in FG. apply FG; [eapply nth_error_In; eauto|]. apply spread_labeling; auto. apply base_labeling.
Qed.
(** The value of a labeling of the tentacle is that of its factors. *)
Lemma big_nth : forall (l : list nat) f h, (forall i k, nth_error l i = Some k -> f i = h k) -> big T OP (seq 0 (length l)) f = big T OP l h.
Proof.
  intros l f h H. assert (G : forall l a, (forall i k, nth_error l i = Some k -> f (a + i) = h k) -> big T OP (seq a (length l)) f = big T OP l h).
  { clear. induction l as [|k l IH]; intros a H; auto. cbn [length seq]. rewrite !big_cons. f_equal; [rewrite <- (H 0 k eq_refl), Nat.add_0_r; auto|]. apply IH. intros i j E. rewrite <- (H (S i) j E). f_equal. lia. }
  apply G. auto.
Qed.
Hypothesis OL : op_laws fin OP.
Theorem gmt_total : forall z, labeling g z -> (forall v, v < n -> fr v = false -> nth v z 0 = nth v el 0) -> total OP gmt (at_vars z C) = big T OP K (fun k => val T OP g k z).
Proof.
  intros z HZ HF. rewrite (total_big T OP fin OL gmt) by (auto using gmt_wf, gmt_fin, gmt_labeling). cbn [v_factors]. rewrite <- (GmProofs.Forall2_len _ _ _ _ _ FS). apply big_nth.
  intros i k EK. apply gmt_val; auto. intros v Hv F. apply HF; auto. apply (vars_lt T g W k v Hv).
Qed.
End Fin.

(** ** The graph of the tentacle *)
Notation E := (FactorGraphSpec.edge (fgraph_of T gmt)).
Lemma gmt_incident : forall i j, incident (fgraph_of T gmt) j i <-> exists k v, nth_error K j = Some k /\ In v (fvars k) /\ In v C /\ i = pos C v.
Proof.
  intros i j. unfold incident. cbn [fgraph_of g_fac v_factors]. split.
  - intros (vs & EV & I). rewrite nth_error_map in EV. destruct (nth_error fs j) as [e|] eqn:Ee; [|discriminate]. injection EV as <-. destruct (GmProofs.Forall2_nth_r _ _ _ _ _ _ _ FS Ee) as (k & EK & (fc & EF & E1 & E2)). rewrite E1 in I. apply in_map_iff in I. destruct I as (v & <- & Iv).
    exists k, v. split; auto. split; auto. split; auto. apply (K_in_C k); auto. eapply nth_error_In; eauto.
  - intros (k & v & EK & Iv & Cv & ->). destruct (Forall2_nth_l _ _ _ _ _ _ _ FS EK) as (e & Ee & (fc & EF & E1 & E2)). exists (fst e). rewrite nth_error_map, Ee. split; auto. rewrite E1. apply in_map. auto.
Qed.
(** A relation between variables and factors of the model without cycles. *)
Variable R : node -> node -> Prop.
Hypothesis RR : forall k v, stf k -> In v (fvars k) -> R (NV v) (NF k) /\ R (NF k) (NV v).
Hypothesis RC : forall c, ~ cycle R c.
Theorem gmt_acyclic : acyclic gmt.
Proof.
  intros c CY. set (phi := fun x : node => match x with NV i => NV (nth i C 0) | NF j => NF (nth j K 0) end).
  assert (VC : forall i j, incident (fgraph_of T gmt) j i -> exists k v, nth_error K j = Some k /\ nth_error C i = Some v /\ In v (fvars k)).
  { intros i j H. apply gmt_incident in H. destruct H as (k & v & EK & Iv & Cv & ->). exists k, v. split; auto. split; auto. apply pos_nth. auto. }
  assert (NB : forall x, In x c -> match x with NV i => exists v, nth_error C i = Some v | NF j => exists k, nth_error K j = Some k end).
  { intros x Hx. destruct (cycle_edge _ _ _ _ CY Hx) as (y & _ & Ey). destruct x as [i|j], y as [i'|j']; try (destruct Ey; fail); destruct (VC _ _ Ey) as (k & v & A & B & _); eauto. }
  apply (RC (map phi c)). eapply cycle_map; [exact CY| |].
  - intros x y Hx Hy Exy. specialize (NB x Hx) as Nx. specialize (NB y Hy) as Ny. destruct x as [i|j], y as [i'|j']; cbn in Exy; try discriminate; injection Exy as Exy; destruct Nx as (a & Ea), Ny as (b & Eb); f_equal.
    + rewrite (nth_error_nth _ _ 0 Ea), (nth_error_nth _ _ 0 Eb) in Exy. subst b. rewrite <- (nth_pos C i a C_nodup Ea). apply (nth_pos C i' a C_nodup Eb).
    + rewrite (nth_error_nth _ _ 0 Ea), (nth_error_nth _ _ 0 Eb) in Exy. subst b. apply (proj1 (NoDup_nth_error K) NK); [apply nth_error_Some; congruence|congruence].
  - intros x y Hx Hy Exy. destruct x as [i|j], y as [i'|j']; try (destruct Exy; fail); destruct (VC _ _ Exy) as (k & v & A & B & I); cbn [phi]; rewrite (nth_error_nth _ _ 0 A), (nth_error_nth _ _ 0 B); apply RR; auto; apply (proj1 (HK k)); eapply nth_error_In; eauto.
Qed.
Lemma E_sym : forall a b, E a b -> E b a.
Proof. intros [i|j] [i'|j'] H; auto. Qed.
Lemma rtE_sym : forall a b, clos_refl_trans node E a b -> clos_refl_trans node E b a.
Proof. intros a b H. induction H as [a b H|a|a b c H1 IH1 H2 IH2]; [apply rt_step, E_sym; auto|apply rt_refl|eapply rt_trans; eauto]. Qed.
Lemma share_conn : forall a b, clos_refl_sym_trans nat sshare a b -> (In a C <-> In b C) /\ (In a C -> clos_refl_trans node E (NV (pos C a)) (NV (pos C b))).
Proof.
  intros a b H. induction H as [a b (k & K0 & Ia & Ib)|a|a b H [IH1 IH2]|a b c H1 [A1 A2] H2 [B1 B2]].
  - split; [split; intros X; eapply CC; eauto|]. intros Ca. assert (Cb : In b C) by (eapply CC; eauto). assert (IK : In k K) by (apply HK; eauto). apply In_nth_error in IK. destruct IK as (j & EK).
    eapply rt_trans; [apply (rt_step _ _ _ (NF j))|apply rt_step]; cbn [FactorGraphSpec.edge]; apply gmt_incident; exists k; eauto 10.
  - split; [tauto|]. intros _. apply rt_refl.
  - split; [tauto|]. intros Cb. apply rtE_sym. apply IH2. tauto.
  - split; [tauto|]. intros Ca. eapply rt_trans; [apply A2; auto|apply B2; tauto].
Qed.
Theorem gmt_connected : forall var, In var C -> (forall v, In v C -> clos_refl_sym_trans nat sshare var v) -> connected gmt.
Proof.
  intros var IV H. assert (G : forall a, (match a with NV v => v < length (v_labels gmt) | NF f => f < length (v_factors gmt) end) -> clos_refl_trans node E (NV (pos C var)) a).
  { assert (GV : forall v, v < length C -> clos_refl_trans node E (NV (pos C var)) (NV v)).
    { intros i Hi. destruct (nth_error_lt _ _ _ Hi) as (v & EV). rewrite <- (nth_pos C i v C_nodup EV). apply share_conn; auto. apply H. eapply nth_error_In; eauto. }
    intros [i|j] L; cbn [v_labels v_factors] in L; [rewrite map_length in L; auto|]. rewrite <- (GmProofs.Forall2_len _ _ _ _ _ FS) in L. destruct (nth_error_lt _ _ _ L) as (k & EK).
    destruct (proj1 (HK k) ltac:(eapply nth_error_In; eauto)) as (_ & v & Cv & Iv). eapply rt_trans; [apply (GV (pos C v)); apply pos_lt; auto|]. apply rt_step. cbn [FactorGraphSpec.edge]. apply gmt_incident. eauto 10. }
  intros a b Ha Hb. eapply rt_trans; [apply rtE_sym; apply G; auto|apply G; auto].
Qed.
End S.
