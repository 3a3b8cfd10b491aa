(** Proofs for tentacle elimination: the loop over all tentacles. *)
From Coq Require Import Sorted Relations Permutation.
From Verif Require Import Base Values GmView GmViewSpec GmViewProofs ShapeSpec FactorGraphModel FactorGraphSpec SubmodelModel SubmodelProps ManipulatorModel MpModel MpSpec DecompForest GmProofs IcmProofs DpProofs ManipulatorProofs ManipulatorProps TentacleModel TentacleSpec TentaclePeel TentacleComp TentacleGmt TentacleRun.
#[local] Arguments nth_error : simpl never.

Section S.
Variable T : Type.
Variable OP : oper T.
Variable ACC : accum T.
Variable fin : T -> Prop.
Hypothesis OL : op_laws fin OP.
Hypothesis AL : acc_laws fin OP ACC.
Variable g : gmv T.
Hypothesis W : wf_gmv g.
Hypothesis FG : fin_gmv fin g.
Variable solve_rooted : gmv T -> nat -> outcome (list T * list (list nat)).
Variable solve_free : gmv T -> outcome (list nat).
Variable MO : nat.
Hypothesis HMO : order_at_most MO g.
Hypothesis SR : rooted_exact fin OP ACC MO solve_rooted.
Hypothesis SF : free_exact fin OP ACC MO solve_free.
Notation n := (length (v_labels g)).
Notation nf := (length (v_factors g)).
Notation lab v := (nth v (v_labels g) 0).
Notation vars := (vars T g).
(** What holds before the loop. *)
Variables fix0 tf0 in_ ir : list bool.
Variable lab0 : list nat.
Hypothesis LF0 : length fix0 = n.
Hypothesis LT0 : length tf0 = nf.
Hypothesis LI0 : length in_ = n.
Hypothesis LR0 : length ir = n.
Hypothesis LB0 : forall v, v < n -> fr fix0 v = false -> nth v lab0 0 < lab v.
Notation fr0 := (fr fix0).
Notation fvars0 := (fvars T g fix0).
Notation isin v := (nth v in_ false = true).
Notation istf k := (nth k tf0 false = true).
Notation isroot v := (nth v ir false = true).
Definition share0 (a b : nat) : Prop := exists k, istf k /\ In a (fvars0 k) /\ In b (fvars0 k).
Hypothesis B1 : forall v, isin v -> fr0 v = true.
Hypothesis B2 : forall k v, istf k -> In v (fvars0 k) -> isin v.
Hypothesis B3 : forall v k, isin v -> ~ isroot v -> In v (fvars0 k) -> istf k.
Hypothesis B4 : forall a b, clos_refl_sym_trans nat share0 a b -> isroot a -> isroot b -> a = b.
Definition edge0 (a b : node) : Prop := match a, b with NV v, NF k | NF k, NV v => istf k /\ In v (fvars0 k) | _, _ => False end.
Hypothesis B5 : forall c, ~ cycle edge0 c.

Notation vis e v := (nth v (e_visited e) false = true).
Notation efr e v := (fr (e_fix e) v).
Notation spread C z w := (spread T g C z w).
(** Labels of the variables of tentacles. *)
Definition cand (t : tent T) (l : nat) : list nat := nth l (t_cand t) [].
Definition tlz (ts : list (tent T)) (z : list nat) : list nat := fold_left (fun z t => spread (t_vars t) z (cand t (nth (t_root t) z 0))) ts z.

Record tent_good (e : elim T) (t : tent T) : Prop := {
  tg_ok : root_ok T fin g t;
  tg_root : In (t_root t) (t_vars t); tg_rr : isroot (t_root t);
  tg_vars : forall v, In v (t_vars t) -> vis e v;
  tg_cand : forall l, l < lab (t_root t) -> length (cand t l) = length (t_vars t) /\ nth (pos (t_vars t) (t_root t)) (cand t l) 0 = l /\
              forall v, In v (t_vars t) -> nth (pos (t_vars t) v) (cand t l) 0 < lab v;
  tg_len : length (t_cand t) = lab (t_root t); tg_nd : NoDup (t_vars t) }.
(** Labels agree with the fixed ones. *)
Definition agrees (fx : list bool) (lb z : list nat) : Prop := forall v, v < n -> fr fx v = false -> nth v z 0 = nth v lb 0.

Record einv (e : elim T) : Prop := {
  ei_lf : length (e_fix e) = n; ei_ll : length (e_lab e) = n; ei_lt : length (e_tf e) = nf; ei_ln : length (e_tent e) = nf; ei_ltt : length (e_tt e) = n; ei_lv : length (e_visited e) = n;
  ei_fix : forall v, efr e v = true <-> fr0 v = true /\ (vis e v -> isroot v);
  ei_tf : forall k, nth k (e_tf e) false = true <-> istf k /\ forall v, In v (fvars0 k) -> ~ vis e v;
  ei_cl : forall k u v, istf k -> In u (fvars0 k) -> In v (fvars0 k) -> vis e u -> vis e v;
  ei_in : forall v, vis e v -> isin v;
  ei_tent : forall k, nth k (e_tent e) false = true -> istf k /\ exists v, In v (fvars0 k) /\ vis e v;
  ei_lab0 : forall v, v < n -> fr0 v = false -> nth v (e_lab e) 0 = nth v lab0 0;
  ei_lab : forall v, v < n -> efr e v = false -> nth v (e_lab e) 0 < lab v;
  ei_tents : Forall (tent_good e) (e_tents e);
  ei_s1 : forall z, labeling g z -> agrees (e_fix e) (e_lab e) z -> let x := tlz (e_tents e) z in
     labeling g x /\ agrees fix0 lab0 x /\ total OP g x = total OP (reduced T OP g (e_tent e) (e_tents e)) z /\ (forall v, v < n -> efr e v = true -> nth v x 0 = nth v z 0);
  ei_s2 : forall z, labeling g z -> agrees fix0 lab0 z -> exists z', labeling g z' /\ agrees (e_fix e) (e_lab e) z' /\ (forall v, v < n -> efr e v = true -> nth v z' 0 = nth v z 0) /\
     a_bop ACC (total OP g z) (total OP (reduced T OP g (e_tent e) (e_tents e)) z') = false }.

Lemma good_ok : forall e, einv e -> Forall (root_ok T fin g) (e_tents e).
Proof. intros e I. eapply Forall_impl; [|apply (ei_tents _ I)]. intros t G. apply (tg_ok _ _ G). Qed.

(** *** Writing labels of a tentacle *)
Lemma spread_len : forall C z w, length (spread C z w) = n.
Proof. intros. unfold TentacleGmt.spread. rewrite map_length, seq_length. auto. Qed.
Lemma list_nth_eq : forall a b, length a = n -> length b = n -> (forall v, v < n -> nth v a 0 = nth v b 0) -> a = b.
Proof. intros a b LA LB H. apply (nth_ext _ _ 0 0); [congruence|]. intros v Hv. apply H. lia. Qed.
Lemma tlz_snoc : forall ts t z, tlz (ts ++ [t]) z = spread (t_vars t) (tlz ts z) (cand t (nth (t_root t) (tlz ts z) 0)).
Proof. intros. unfold tlz. rewrite fold_left_app. auto. Qed.
Lemma tlz_len : forall ts z, length z = n -> length (tlz ts z) = n.
Proof. intros ts. induction ts as [|t ts IH]; intros z L; auto. cbn. apply IH. apply spread_len. Qed.
Lemma tlz_out : forall e ts z v, Forall (tent_good e) ts -> v < n -> ~ vis e v -> nth v (tlz ts z) 0 = nth v z 0.
Proof.
  intros e ts. induction ts as [|t ts IH]; intros z v H Hv NV; auto. inversion H as [|? ? H1 H2]; subst. cbn [tlz fold_left]. fold (tlz ts (spread (t_vars t) z (cand t (nth (t_root t) z 0)))). rewrite IH by auto. rewrite nth_spread by auto.
  destruct (mem v (t_vars t)) eqn:M; auto. apply mem_In in M. exfalso. apply NV. apply (tg_vars _ _ H1). auto.
Qed.
Lemma tlz_spread : forall e ts C z w, Forall (tent_good e) ts -> (forall v, In v C -> ~ vis e v) -> length z = n -> tlz ts (spread C z w) = spread C (tlz ts z) w.
Proof.
  intros e ts C. induction ts as [|t ts IH]; intros z w H HC L; auto. inversion H as [|? ? H1 H2]; subst. cbn [tlz fold_left].
  assert (DJ : forall v, In v (t_vars t) -> mem v C = false). { intros v Hv. apply mem_false. intros X. apply (HC v X). apply (tg_vars _ _ H1). auto. }
  destruct (tg_ok _ _ H1) as (RL & _ & _). pose proof (tg_root _ _ H1) as RI.
  rewrite (nth_spread T g C z w (t_root t) RL), (DJ _ RI). set (c := cand t (nth (t_root t) z 0)).
  assert (E : spread (t_vars t) (spread C z w) c = spread C (spread (t_vars t) z c) w).
  { apply list_nth_eq; try apply spread_len. intros v Hv. rewrite !nth_spread by auto. destruct (mem v (t_vars t)) eqn:M; [rewrite (DJ v) by (apply mem_In; auto); auto|auto]. }
  rewrite E. apply IH; auto. apply spread_len.
Qed.

(** *** One tentacle *)
Section One.
Variable e : elim T.
Hypothesis I : einv e.
Variable C : list nat.
Hypothesis SC : StronglySorted lt C.
Hypothesis UC : forall v, In v C -> efr e v = true /\ ~ vis e v /\ isin v.
Notation efv := (fvars T g (e_fix e)).
Notation estf := (stf (e_tf e)).
Hypothesis CC : forall v k u, In v C -> estf k -> In v (efv k) -> In u (efv k) -> In u C.
Variable K : list nat.
Hypothesis NK : NoDup K.
Hypothesis HK : forall k, In k K <-> estf k /\ exists v, In v C /\ In v (efv k).

Lemma vis_dec : forall v, vis e v \/ ~ vis e v.
Proof. intros v. destruct (nth v (e_visited e) false); auto. Qed.
Lemma efv0 : forall k v, In v (efv k) -> In v (fvars0 k).
Proof. intros k v H. apply fvars_In in H. destruct H as [A B]. apply (ei_fix _ I) in B. apply fvars_In. tauto. Qed.
Lemma unvis_efv : forall k v, In v (fvars0 k) -> ~ vis e v -> In v (efv k).
Proof. intros k v H N. apply fvars_In in H. destruct H as [A B]. apply fvars_In. split; auto. apply (ei_fix _ I). tauto. Qed.
Lemma touch_tf : forall k v, istf k -> In v C -> In v (fvars0 k) -> In k K.
Proof.
  intros k v K0 IC IV. apply HK. assert (NV : ~ vis e v) by apply (UC v IC). split; [|exists v; split; auto; apply unvis_efv; auto]. unfold TentacleComp.stf. apply (ei_tf _ I). split; auto. intros u Iu X. apply NV. eapply (ei_cl _ I); eauto.
Qed.
Lemma K_istf : forall k, In k K -> istf k.
Proof. intros k H. apply HK in H. destruct H as [H _]. apply (ei_tf _ I) in H. tauto. Qed.
Lemma K_kept : forall k, In k K -> In k (kept T g (e_tent e)).
Proof.
  intros k H. apply HK in H. destruct H as (H & v & Cv & Iv). apply filter_In. split; [apply in_seq; pose proof (fvars_lt T g W _ _ _ Iv); lia|]. apply negb_true_iff. apply not_true_iff_false. intros X. apply (ei_tent _ I) in X. destruct X as (_ & u & Iu & Vu). apply (ei_tf _ I) in H. destruct H as [_ H]. apply (H u); auto.
Qed.
(** Factors outside the tentacle have only its root in it. *)
Lemma outside : forall k v, ~ In k K -> In v C -> In v (vars k) -> isroot v.
Proof.
  intros k v N IC IV. destruct (UC v IC) as (F & NV & IN). destruct (nth v ir false) eqn:R; auto. exfalso. apply N. assert (F0 : In v (fvars0 k)) by (apply fvars_In; split; auto; apply B1; auto). apply (touch_tf k v); auto. apply (B3 v); auto. congruence.
Qed.
Lemma val_outside : forall k z z', ~ In k K -> (forall v, v < n -> (In v C -> isroot v) -> nth v z 0 = nth v z' 0) -> val T OP g k z = val T OP g k z'.
Proof.
  intros k z z' N H. unfold val. destruct (nth_error (v_factors g) k) as [fc|] eqn:E; auto. f_equal. apply map_ext_in. intros v Hv. assert (IV : In v (vars k)) by (unfold TentaclePeel.vars; rewrite E; auto). apply H; [apply (vars_lt T g W k v IV)|]. intros IC. apply (outside k); auto.
Qed.
Lemma kept_split : forall z, labeling g z -> big T OP (kept T g (e_tent e)) (fun k => val T OP g k z) =
  o_op OP (big T OP (filter (fun k => negb (mem k K)) (kept T g (e_tent e))) (fun k => val T OP g k z)) (big T OP K (fun k => val T OP g k z)).
Proof.
  intros z HZ. assert (VF : forall k, fin (val T OP g k z)) by (intros; apply (val_fin T OP fin OL); auto).
  rewrite (big_filter T OP fin OL (fun k => negb (mem k K))) by auto. f_equal. apply (big_perm T OP fin OL); auto. apply NoDup_Permutation; [apply NoDup_filter, NoDup_filter, seq_NoDup|auto|].
  intros k. rewrite filter_In, !negb_involutive, mem_In. split; [tauto|]. intros H. split; auto. apply K_kept; auto.
Qed.
(** The lists after the tentacle. *)
Variables (vs' tf' : list bool).
Hypothesis LV' : length vs' = n.
Hypothesis VS : forall v, nth v vs' false = nth v (e_visited e) false || mem v C.
Hypothesis LT' : length tf' = nf.
Hypothesis TF' : forall k, nth k tf' false = nth k (e_tf e) false && negb (mem k K).
Lemma vis'_iff : forall v, nth v vs' false = true <-> vis e v \/ In v C.
Proof. intros v. rewrite VS, orb_true_iff, mem_In. tauto. Qed.
Lemma tf'_iff : forall k, nth k tf' false = true <-> istf k /\ forall v, In v (fvars0 k) -> ~ nth v vs' false = true.
Proof.
  intros k. rewrite TF', andb_true_iff, negb_true_iff, mem_false, (ei_tf _ I). split.
  - intros [[A B] N]. split; auto. intros v Iv X. apply vis'_iff in X. destruct X as [X|X]; [apply (B v); auto|]. apply N. eapply touch_tf; eauto.
  - intros [A B]. split; [split; auto; intros v Iv X; apply (B v Iv); apply vis'_iff; auto|]. intros X. apply HK in X. destruct X as (_ & v & Cv & Iv). apply (B v); [apply efv0; auto|apply vis'_iff; auto].
Qed.
Lemma cl' : forall k u v, istf k -> In u (fvars0 k) -> In v (fvars0 k) -> nth u vs' false = true -> nth v vs' false = true.
Proof.
  intros k u v K0 Iu Iv X. apply vis'_iff in X. apply vis'_iff. destruct X as [X|X]; [left; apply (ei_cl _ I k u v); auto|]. right.
  assert (NU : ~ vis e u) by apply (UC u X). assert (NV : ~ vis e v) by (intros Y; apply NU; apply (ei_cl _ I k v u); auto).
  apply (CC u k v); auto; try (apply unvis_efv; auto). apply (ei_tf _ I). split; auto. intros w Iw Y. apply NU. apply (ei_cl _ I k w u); auto.
Qed.
Lemma in' : forall v, nth v vs' false = true -> isin v.
Proof. intros v X. apply vis'_iff in X. destruct X as [X|X]; [apply (ei_in _ I); auto|apply (UC v X)]. Qed.
Lemma C_bound : forall v, In v C -> v < n.
Proof. intros v H. apply (fr_lt T g (e_fix e) (ei_lf _ I)). apply (UC v H). Qed.
Lemma old_good : forall e' t, (forall v, vis e v -> vis e' v) -> tent_good e t -> tent_good e' t.
Proof. intros e' t H [A1 A2 A3 A4 A5 A6 A7]. constructor; auto. Qed.
(** The value of the tentacle. *)
Variable gmt : gmv T.
Hypothesis GL : forall z, labeling g z -> labeling gmt (at_vars z C).
Hypothesis GT : forall z, labeling g z -> agrees (e_fix e) (e_lab e) z -> total OP gmt (at_vars z C) = big T OP K (fun k => val T OP g k z).
Hypothesis GS : forall z w, labeling g z -> labeling gmt w -> labeling g (spread C z w) /\ at_vars (spread C z w) C = w.
Hypothesis GW : forall w, labeling gmt w -> length w = length C.
Lemma old_agrees : forall z w, agrees (e_fix e) (e_lab e) z -> agrees (e_fix e) (e_lab e) (spread C z w).
Proof. intros z w H v Hv F. rewrite nth_spread by auto. destruct (mem v C) eqn:M; auto. apply mem_In in M. rewrite (proj1 (UC v M)) in F. discriminate. Qed.
Lemma agrees_frees : forall fx lb z, agrees (e_fix e) (e_lab e) z -> (forall v, fr fx v = false -> efr e v = false) -> (forall v, efr e v = false -> nth v lb 0 = nth v (e_lab e) 0) -> agrees fx lb z.
Proof. intros fx lb z H A B v Hv F. rewrite B by auto. apply H; auto. Qed.

Notation red := (reduced T OP g (e_tent e) (e_tents e)).
Lemma red_total : forall z, labeling g z -> total OP red z = o_op OP (big T OP (kept T g (e_tent e)) (fun k => val T OP g k z)) (bl T OP (e_tents e) (fun t => root_value T OP t (nth (t_root t) z 0))).
Proof. intros z HZ. apply (reduced_total T OP fin OL g); auto; [apply (ei_ln _ I)|apply good_ok; auto]. Qed.
Lemma roots_same : forall z z', (forall v, vis e v -> v < n -> nth v z 0 = nth v z' 0) -> bl T OP (e_tents e) (fun t => root_value T OP t (nth (t_root t) z 0)) = bl T OP (e_tents e) (fun t => root_value T OP t (nth (t_root t) z' 0)).
Proof.
  intros z z' H. apply bl_ext. intros t Ht. pose proof (ei_tents _ I) as G. rewrite Forall_forall in G. specialize (G t Ht). f_equal. apply H; [apply (tg_vars _ _ G), (tg_root _ _ G)|apply (tg_ok _ _ G)].
Qed.
Lemma roots_fin : forall z, labeling g z -> fin (bl T OP (e_tents e) (fun t => root_value T OP t (nth (t_root t) z 0))).
Proof. intros z HZ. apply (bl_fin T OP fin OL). intros t Ht. apply (root_fin T OP fin g); auto. pose proof (good_ok e I) as G. rewrite Forall_forall in G. auto. Qed.
Lemma part_fin : forall l z, labeling g z -> fin (big T OP l (fun k => val T OP g k z)).
Proof. intros l z HZ. apply (big_fin T OP fin OL). intros. apply (val_fin T OP fin OL); auto. Qed.

(** **** Without root *)
Section Free.
Variable arg : list nat.
Hypothesis OA : optimal OP ACC gmt arg.
Variable fx' : list bool.
Hypothesis NR : forall v, In v C -> ~ isroot v.
Variable tt' : list nat.
Hypothesis LTT : length tt' = n.
Variable lb : list nat.
Hypothesis LFX : length fx' = n.
Hypothesis LLB : length lb = n.
Hypothesis FX : forall v, fr fx' v = (efr e v && negb (mem v C))%bool.
Hypothesis LB : forall v, nth v lb 0 = if mem v C then nth (pos C v) arg 0 else nth v (e_lab e) 0.
Variable tn' : list bool.
Hypothesis TN : forall k, nth k tn' false = if mem k K then false else nth k (e_tent e) false.
Hypothesis LTN : length tn' = nf.
Lemma same_tent : tn' = e_tent e.
Proof.
  apply (nth_ext _ _ false false); [rewrite LTN, (ei_ln _ I); auto|]. intros k Hk. rewrite TN. destruct (mem k K) eqn:M; auto. apply mem_In, K_kept, filter_In in M. destruct M as [_ M]. apply negb_true_iff in M. auto.
Qed.
Theorem free_step : einv (mkElim fx' lb tf' tn' (e_tents e) tt' vs').
Proof.
  assert (VV : forall v, vis e v -> vis (mkElim fx' lb tf' tn' (e_tents e) tt' vs') v) by (intros v H; cbn; apply vis'_iff; auto).
  assert (FR : forall v, fr fx' v = true <-> efr e v = true /\ ~ In v C). { intros v. rewrite FX, andb_true_iff, negb_true_iff, mem_false. tauto. }
  constructor; cbn [e_fix e_lab e_tf e_tent e_tents e_tt e_visited]; auto.
  - intros v. rewrite FR, (ei_fix _ I), vis'_iff. split.
    + intros [[A B] N]. split; auto. tauto.
    + intros [A B]. split; [split; auto|]. intros X. apply (NR v X). auto.
  - apply tf'_iff.
  - apply cl'.
  - apply in'.
  - intros k H. rewrite same_tent in H. apply (ei_tent _ I) in H. destruct H as (H & v & A & B). split; auto. exists v. auto.
  - intros v Hv F. rewrite LB. destruct (mem v C) eqn:M; [apply mem_In in M; destruct (UC v M) as (_ & _ & X); rewrite (B1 v X) in F; discriminate|]. apply (ei_lab0 _ I); auto.
  - intros v Hv F. rewrite LB. destruct (mem v C) eqn:M.
    + apply mem_In in M. destruct OA as [OA1 _]. destruct (GS (base T g (e_fix e) (e_lab e)) arg) as [GS1 _]; auto. { apply base_labeling; auto. apply (ei_lab _ I). }
      pose proof (Forall2_nth_lt _ _ v GS1 Hv) as X. rewrite nth_spread in X by auto. rewrite (proj2 (mem_In v C) M) in X. auto.
    + apply (ei_lab _ I); auto. rewrite FX, M in F. cbn in F. rewrite andb_true_r in F. auto.
  - eapply Forall_impl; [|apply (ei_tents _ I)]. intros t. apply old_good. auto.
  - intros z HZ AZ. cbv zeta. rewrite same_tent. assert (AE : agrees (e_fix e) (e_lab e) z).
    { intros v Hv F. rewrite AZ; auto; [rewrite LB; destruct (mem v C) eqn:M; auto; apply mem_In in M; rewrite (proj1 (UC v M)) in F; discriminate|]. rewrite FX, F. auto. }
    destruct (ei_s1 _ I z HZ AE) as (A & B & D & E). split; auto. split; auto. split; auto. intros v Hv F. apply E; auto. apply FR in F. tauto.
  - intros z HZ AZ. rewrite same_tent. destruct (ei_s2 _ I z HZ AZ) as (z' & A & B & D & E). destruct OA as [OA1 OA2]. destruct (GS z' arg A OA1) as [S1 S2]. exists (spread C z' arg). split; auto. split; [|split].
    + intros v Hv F. rewrite nth_spread, LB by auto. destruct (mem v C) eqn:M; auto. apply B; auto. rewrite FX, M in F. cbn in F. rewrite andb_true_r in F. auto.
    + intros v Hv F. apply FR in F. destruct F as [F NC]. rewrite nth_spread by auto. apply mem_false in NC. rewrite NC. auto.
    + assert (AS : agrees (e_fix e) (e_lab e) (spread C z' arg)) by (apply old_agrees; auto).
      assert (TF : fin (total OP red z')) by (rewrite red_total by auto; apply (ol_op _ _ OL); [apply part_fin; auto|apply roots_fin; auto]).
      assert (TF2 : fin (total OP red (spread C z' arg))) by (rewrite red_total by auto; apply (ol_op _ _ OL); [apply part_fin; auto|apply roots_fin; auto]).
      assert (TZ : fin (total OP g z)) by (rewrite (total_big T OP fin OL) by auto; apply part_fin; auto).
      apply (al_negtrans _ _ _ AL _ (total OP red z')); auto. rewrite !red_total by auto.
      rewrite (roots_same (spread C z' arg) z').
      2:{ intros v Vv Hv. rewrite nth_spread by auto. destruct (mem v C) eqn:M; auto. apply mem_In in M. exfalso. apply (proj1 (proj2 (UC v M))). auto. }
      rewrite (kept_split z') by auto. rewrite (kept_split (spread C z' arg)) by auto.
      rewrite (big_ext T OP (filter _ _) (fun k => val T OP g k (spread C z' arg)) (fun k => val T OP g k z')).
      2:{ intros k Hk. apply filter_In in Hk. destruct Hk as [_ Hk]. apply negb_true_iff, mem_false in Hk. apply val_outside; auto. intros v Hv X. rewrite nth_spread by auto. destruct (mem v C) eqn:M; auto. apply mem_In in M. exfalso. apply (NR v M). auto. }
      pose proof (part_fin (filter (fun k => negb (mem k K)) (kept T g (e_tent e))) z' A) as F1. pose proof (part_fin K z' A) as F2. pose proof (part_fin K _ S1) as F3. pose proof (roots_fin z' A) as F4.
      rewrite !(ol_comm _ _ OL _ (bl T OP (e_tents e) _)) by (auto; apply (ol_op _ _ OL); auto).
      rewrite (al_mono _ _ _ AL) by (auto; apply (ol_op _ _ OL); auto). rewrite (al_mono _ _ _ AL) by auto. rewrite <- !GT by auto. rewrite S2. apply OA2. apply GL. auto.
Qed.
End Free.

(** **** With a root *)
Section Rooted.
Variable root : nat.
Hypothesis RI : In root C.
Hypothesis RR : isroot root.
Hypothesis R1 : forall v, In v C -> isroot v -> v = root.
Variables (vals : list T) (cands : list (list nat)).
Hypothesis LVA : length vals = lab root.
Hypothesis LCA : length cands = lab root.
Hypothesis BEST : forall l, l < lab root -> best_given OP ACC gmt (pos C root) l (nth l cands []) /\ nth_error vals l = Some (total OP gmt (nth l cands [])).
Variable tt' lb : list nat.
Variable fx' : list bool.
Hypothesis LTT : length tt' = n.
Hypothesis LFX : length fx' = n.
Hypothesis LLB : length lb = n.
Hypothesis FX : forall v, fr fx' v = (efr e v && negb (mem v C && negb (v =? root)))%bool.
Hypothesis LB : forall v, nth v lb 0 = if mem v C && negb (v =? root) then 0 else nth v (e_lab e) 0.
Variable tn' : list bool.
Hypothesis TN : forall k, nth k tn' false = if mem k K then true else nth k (e_tent e) false.
Hypothesis LTN : length tn' = nf.
Notation t := (mkTent root vals cands C).
Lemma kept' : kept T g tn' = filter (fun k => negb (mem k K)) (kept T g (e_tent e)).
Proof.
  unfold kept. rewrite filter_filter. apply filter_ext. intros k. rewrite TN. destruct (mem k K), (nth k (e_tent e) false); auto.
Qed.
Lemma vals_nth : forall l, l < lab root -> nth l vals (o_neutral OP) = total OP gmt (nth l cands []).
Proof. intros l H. destruct (BEST l H) as [_ E]. apply nth_error_nth. auto. Qed.
Lemma base_lab : labeling g (base T g (e_fix e) (e_lab e)).
Proof. apply base_labeling; auto. apply (ei_lab _ I). Qed.
Lemma base_agrees : agrees (e_fix e) (e_lab e) (base T g (e_fix e) (e_lab e)).
Proof. intros v Hv F. rewrite nth_base, F by auto. auto. Qed.
Lemma tot_fin : forall w, labeling gmt w -> fin (total OP gmt w).
Proof.
  intros w HW. destruct (GS _ w base_lab HW) as [A B]. rewrite <- B. rewrite GT by (auto; apply old_agrees, base_agrees). apply part_fin. auto.
Qed.
Lemma new_ok : root_ok T fin g t.
Proof.
  split; [apply C_bound; auto|]. split; [exact LVA|]. cbn [t_fun]. apply Forall_forall. intros v Hv. apply In_nth_error in Hv. destruct Hv as (l & El). assert (Hl : l < lab root) by (rewrite <- LVA; apply nth_error_Some; congruence).
  destruct (BEST l Hl) as [(A & _) E]. rewrite E in El. injection El as <-. apply tot_fin. auto.
Qed.
Lemma lt_root : forall z, labeling g z -> nth root z 0 < lab root.
Proof. intros z HZ. apply Forall2_nth_lt; auto. apply C_bound; auto. Qed.
Theorem rooted_step : einv (mkElim fx' lb tf' tn' (e_tents e ++ [t]) tt' vs').
Proof.
  assert (VV : forall v, vis e v -> vis (mkElim fx' lb tf' tn' (e_tents e ++ [t]) tt' vs') v) by (intros v H; cbn; apply vis'_iff; auto).
  assert (FR : forall v, fr fx' v = true <-> efr e v = true /\ (In v C -> v = root)).
  { intros v. rewrite FX, andb_true_iff, negb_true_iff. destruct (mem v C) eqn:M; cbn [andb].
    - apply mem_In in M. rewrite negb_false_iff, Nat.eqb_eq. tauto.
    - apply mem_false in M. tauto. }
  assert (TG : Forall (tent_good (mkElim fx' lb tf' tn' (e_tents e ++ [t]) tt' vs')) (e_tents e ++ [t])).
  { apply Forall_app. split. { eapply Forall_impl; [|apply (ei_tents _ I)]. intros s. apply old_good. auto. } constructor; [|constructor]. constructor; cbn [t_root t_vars t_fun t_cand]; auto.
    - apply new_ok.
    - intros v Hv. cbn. apply vis'_iff. auto.
    - intros l Hl. destruct (BEST l Hl) as [(A & B & _) _]. unfold cand. cbn [t_cand]. split; [apply GW; auto|]. split; auto. intros v Hv. destruct (GS _ _ base_lab A) as [S1 _]. pose proof (Forall2_nth_lt _ _ v S1 (C_bound v Hv)) as X. rewrite nth_spread in X by (apply C_bound; auto). rewrite (proj2 (mem_In v C) Hv) in X. auto.
    - apply C_nodup. auto. }
  assert (RO : Forall (root_ok T fin g) (e_tents e ++ [t])) by (apply Forall_app; split; [apply good_ok; auto|constructor; [apply new_ok|constructor]]).
  assert (TOT : forall z, labeling g z -> total OP (reduced T OP g tn' (e_tents e ++ [t])) z =
    o_op OP (big T OP (filter (fun k => negb (mem k K)) (kept T g (e_tent e))) (fun k => val T OP g k z)) (o_op OP (bl T OP (e_tents e) (fun t => root_value T OP t (nth (t_root t) z 0))) (total OP gmt (nth (nth root z 0) cands [])))).
  { intros z HZ. rewrite (reduced_total T OP fin OL g) by auto. rewrite kept'. f_equal. rewrite (bl_app T OP fin OL).
    - f_equal. cbn [bl fold_right]. unfold root_value at 1. cbn [t_fun t_root]. rewrite vals_nth by (apply lt_root; auto). rewrite (ol_comm _ _ OL); [apply (ol_unit _ _ OL)| |apply (ol_neutral _ _ OL)]; apply tot_fin; apply BEST; apply lt_root; auto.
    - intros s Hs. apply (root_fin T OP fin g); auto. rewrite Forall_forall in RO. auto. }
  constructor; cbn [e_fix e_lab e_tf e_tent e_tents e_tt e_visited]; auto.
  - intros v. rewrite FR, (ei_fix _ I), vis'_iff. split.
    + intros [[A B] N]. split; auto. intros [X|X]; auto. rewrite (N X). auto.
    + intros [A B]. split; [split; auto|]. intros X. apply R1; auto.
  - apply tf'_iff.
  - apply cl'.
  - apply in'.
  - intros k H. rewrite TN in H. destruct (mem k K) eqn:M.
    + apply mem_In in M. split; [apply K_istf; auto|]. apply HK in M. destruct M as (_ & v & Cv & Iv). exists v. split; [apply efv0; auto|apply vis'_iff; auto].
    + apply (ei_tent _ I) in H. destruct H as (H & v & A & B). split; auto. exists v. auto.
  - intros v Hv F. rewrite LB. destruct (mem v C) eqn:M; [apply mem_In in M; destruct (UC v M) as (_ & _ & X); rewrite (B1 v X) in F; discriminate|]. apply (ei_lab0 _ I); auto.
  - intros v Hv F. rewrite LB. destruct (mem v C && negb (v =? root)) eqn:M.
    + destruct W as [_ PL]. unfold positive in PL. rewrite Forall_forall in PL. apply PL. apply nth_In. auto.
    + apply (ei_lab _ I); auto. rewrite FX, M in F. cbn in F. rewrite andb_true_r in F. auto.
  - intros z HZ AZ. cbv zeta. pose proof (lt_root z HZ) as LR. destruct (BEST _ LR) as [(BL & BR & _) _]. set (w := nth (nth root z 0) cands []) in *.
    assert (AE : agrees (e_fix e) (e_lab e) z).
    { intros v Hv F. rewrite AZ; auto; [rewrite LB; destruct (mem v C) eqn:M; auto; apply mem_In in M; rewrite (proj1 (UC v M)) in F; discriminate|]. rewrite FX, F. auto. }
    destruct (GS z w HZ BL) as [S1 S2]. destruct (ei_s1 _ I (spread C z w) S1 (old_agrees z w AE)) as (A & B & D & E).
    assert (NVC : forall v, In v C -> ~ vis e v) by (intros v Hv; apply (UC v Hv)).
    assert (LZ : length z = n) by (apply GmProofs.Forall2_len in HZ; auto).
    assert (X : tlz (e_tents e ++ [t]) z = tlz (e_tents e) (spread C z w)).
    { rewrite tlz_snoc. cbn [t_root t_vars]. rewrite (tlz_spread e) by (auto; apply (ei_tents _ I)). f_equal. rewrite (tlz_out e) by (first [apply (ei_tents _ I)|apply C_bound; auto|auto]). auto. }
    rewrite X. split; auto. split; auto. split.
    + rewrite D, TOT, red_total by auto. rewrite (roots_same (spread C z w) z).
      2:{ intros v Vv Hv. rewrite nth_spread by auto. destruct (mem v C) eqn:M; auto. apply mem_In in M. exfalso. apply (NVC v M). auto. }
      rewrite (kept_split (spread C z w)) by auto. rewrite (big_ext T OP (filter _ _) (fun k => val T OP g k (spread C z w)) (fun k => val T OP g k z)).
      2:{ intros k Hk. apply filter_In in Hk. destruct Hk as [_ Hk]. apply negb_true_iff, mem_false in Hk. apply val_outside; auto. intros v Hv Y. rewrite nth_spread by auto. destruct (mem v C) eqn:M; auto. apply mem_In in M. rewrite (R1 v M (Y M)). auto. }
      rewrite <- GT by (auto; apply old_agrees; auto). rewrite S2.
      pose proof (part_fin (filter (fun k => negb (mem k K)) (kept T g (e_tent e))) z HZ) as F1. pose proof (roots_fin z HZ) as F4. pose proof (tot_fin w BL) as F5.
      rewrite <- (ol_assoc _ _ OL) by auto. f_equal. apply (ol_comm _ _ OL); auto.
    + intros v Hv F. apply FR in F. destruct F as [F N]. rewrite E by auto. rewrite nth_spread by auto. destruct (mem v C) eqn:M; auto. apply mem_In in M. rewrite (N M). auto.
  - intros z HZ AZ. destruct (ei_s2 _ I z HZ AZ) as (z' & A & B & D & E). pose proof (lt_root z' A) as LR. destruct (BEST _ LR) as [(BL & BR & BB) _].
    set (z'' := map (fun v => if mem v C && negb (v =? root) then 0 else nth v z' 0) (seq 0 n)).
    assert (NZ : forall v, v < n -> nth v z'' 0 = if mem v C && negb (v =? root) then 0 else nth v z' 0).
    { intros v H. unfold z''. erewrite nth_error_nth; [|apply map_nth_error; rewrite nth_error_nth' with (d := 0) by (rewrite seq_length; auto); rewrite seq_nth by auto; reflexivity]. auto. }
    assert (HZ'' : labeling g z'').
    { apply Forall2_nth_intro; unfold z'' at 1; rewrite map_length, seq_length; auto. intros v Hv. rewrite NZ by auto. destruct (mem v C && negb (v =? root)); [|apply Forall2_nth_lt; auto]. destruct W as [_ PL]. unfold positive in PL. rewrite Forall_forall in PL. apply PL. apply nth_In. auto. }
    assert (ROOT : nth root z'' 0 = nth root z' 0) by (rewrite NZ by (apply C_bound; auto); rewrite Nat.eqb_refl, andb_false_r; auto).
    exists z''. split; auto. split; [|split].
    + intros v Hv F. rewrite NZ, LB by auto. destruct (mem v C && negb (v =? root)) eqn:M; auto. apply B; auto. rewrite FX, M in F. cbn in F. rewrite andb_true_r in F. auto.
    + intros v Hv F. apply FR in F. destruct F as [F NC]. rewrite NZ by auto. destruct (mem v C) eqn:M; cbn [andb]; auto. apply mem_In in M. rewrite (NC M), Nat.eqb_refl. cbn. apply D; auto. apply C_bound; auto. rewrite <- (NC M). auto.
    + pose proof (part_fin (filter (fun k => negb (mem k K)) (kept T g (e_tent e))) z' A) as F1. pose proof (part_fin K z' A) as F2. pose proof (roots_fin z' A) as F4. pose proof (tot_fin _ BL) as F5.
      assert (TF : fin (total OP red z')) by (rewrite red_total by auto; apply (ol_op _ _ OL); [apply part_fin; auto|apply roots_fin; auto]).
      assert (TZ : fin (total OP g z)) by (rewrite (total_big T OP fin OL) by auto; apply part_fin; auto).
      assert (EQ : total OP (reduced T OP g tn' (e_tents e ++ [t])) z'' = o_op OP (o_op OP (big T OP (filter (fun k => negb (mem k K)) (kept T g (e_tent e))) (fun k => val T OP g k z')) (bl T OP (e_tents e) (fun t => root_value T OP t (nth (t_root t) z' 0)))) (total OP gmt (nth (nth root z' 0) cands []))).
      { rewrite TOT by auto. rewrite ROOT. rewrite (roots_same z'' z').
        2:{ intros v Vv Hv. rewrite NZ by auto. destruct (mem v C) eqn:M; cbn [andb]; auto. apply mem_In in M. exfalso. apply (proj1 (proj2 (UC v M))). auto. }
        rewrite (big_ext T OP (filter _ _) (fun k => val T OP g k z'') (fun k => val T OP g k z')); [apply (ol_assoc _ _ OL); auto|].
        intros k Hk. apply filter_In in Hk. destruct Hk as [_ Hk]. apply negb_true_iff, mem_false in Hk. apply val_outside; auto. intros v Hv Y. rewrite NZ by auto. destruct (mem v C) eqn:M; cbn [andb]; auto. apply mem_In in M. rewrite (R1 v M (Y M)), Nat.eqb_refl. auto. }
      apply (al_negtrans _ _ _ AL _ (total OP red z')); auto.
      * rewrite EQ. apply (ol_op _ _ OL); auto. apply (ol_op _ _ OL); auto.
      * rewrite EQ, red_total, kept_split by auto. rewrite <- (ol_assoc _ _ OL _ _ (bl T OP (e_tents e) _)) by auto. rewrite (ol_comm _ _ OL (big T OP K _)) by auto. rewrite (ol_assoc _ _ OL) by auto.
        rewrite (al_mono _ _ _ AL) by (auto; apply (ol_op _ _ OL); auto). rewrite <- GT by auto. apply BB; [apply GL; auto|]. unfold at_vars. erewrite nth_error_nth; [|apply map_nth_error; apply pos_nth; auto]. auto.
Qed.
End Rooted.
End One.
End S.
