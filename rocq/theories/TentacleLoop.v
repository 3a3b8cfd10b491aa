(** Proofs for tentacle elimination: one step of the loop and the loop. *)
From Coq Require Import Sorted Relations Permutation.
From Verif Require Import Base Values GmView GmViewSpec GmViewProofs ShapeSpec FactorGraphModel FactorGraphSpec SubmodelModel SubmodelProps ManipulatorModel MpModel MpSpec DecompForest GmProofs IcmProofs DpProofs ManipulatorProofs ManipulatorProps TentacleModel TentacleSpec TentaclePeel TentacleComp TentacleGmt TentacleRun TentacleElim.
#[local] Arguments nth_error : simpl never.

Lemma fr_upd : forall fx v u, v < length fx -> fr (upd fx v true) u = (fr fx u && negb (u =? v))%bool.
Proof.
  intros fx v u H. unfold fr. destruct (Nat.eqb_spec u v) as [->|N].
  - rewrite nth_upd_eq by auto. rewrite andb_false_r. auto.
  - rewrite nth_upd_neq by auto. rewrite andb_true_r. auto.
Qed.
Lemma mem_snoc : forall v l a, mem v (l ++ [a]) = mem v l || (v =? a).
Proof. intros. rewrite mem_app. cbn [mem existsb]. rewrite orb_false_r. auto. Qed.

Lemma fix_dummies_ok : forall n root l fx lb, length fx = n -> length lb = n -> (forall v, In v l -> v < n) ->
  exists fx' lb', fix_dummies root l (fx, lb) = Ret (fx', lb') /\ length fx' = n /\ length lb' = n /\
    (forall v, fr fx' v = (fr fx v && negb (mem v l && negb (v =? root)))%bool) /\
    (forall v, nth v lb' 0 = if mem v l && negb (v =? root) then 0 else nth v lb 0).
Proof.
  intros n root l fx lb LF LL HL. unfold fix_dummies.
  destruct (foldM_pre nat (list bool * list nat) (fun pre fl => length (fst fl) = n /\ length (snd fl) = n /\
    (forall v, fr (fst fl) v = (fr fx v && negb (mem v pre && negb (v =? root)))%bool) /\
    (forall v, nth v (snd fl) 0 = if mem v pre && negb (v =? root) then 0 else nth v lb 0))
    (fun (fl : list bool * list nat) v => if v =? root then Ret fl else f <- wr (fst fl) v true ;; l <- wr (snd fl) v 0 ;; Ret (f, l)) l (fx, lb)) as ((fx' & lb') & E & A & B & D & F).
  - cbn. repeat split; auto. intros v. rewrite andb_true_r. auto.
  - intros pre v post [f b] ES (A & B & D & F). cbn [fst snd] in *. assert (Hv : v < n) by (apply HL; rewrite ES; apply in_elt). destruct (Nat.eqb_spec v root) as [->|N].
    + exists (f, b). split; auto. cbn [fst snd]. repeat split; auto; intros u; rewrite mem_snoc; rewrite ?D, ?F; destruct (Nat.eqb_spec u root) as [->|N]; rewrite ?andb_false_r, ?orb_false_r; auto.
    + rewrite wr_Ret by lia. cbn [bind]. rewrite wr_Ret by lia. cbn [bind]. eexists. split; [reflexivity|]. cbn [fst snd]. rewrite !length_upd. repeat split; auto; intros u; rewrite mem_snoc.
      * rewrite fr_upd by lia. rewrite D. destruct (Nat.eqb_spec u v) as [->|M]; [|rewrite orb_false_r, andb_true_r; auto]. rewrite orb_true_r. apply Nat.eqb_neq in N. rewrite N. cbn [andb negb]. rewrite !andb_false_r. auto.
      * destruct (Nat.eqb_spec u v) as [->|M]; [|rewrite nth_upd_neq, orb_false_r by auto; auto]. rewrite nth_upd_eq by lia. rewrite orb_true_r. apply Nat.eqb_neq in N. rewrite N. auto.
  - exists fx', lb'. auto.
Qed.
Lemma fix_solved_ok : forall n C arg fx lb, NoDup C -> length fx = n -> length lb = n -> length arg = length C -> (forall v, In v C -> v < n) ->
  exists fx' lb', fix_solved C arg (fx, lb) = Ret (fx', lb') /\ length fx' = n /\ length lb' = n /\
    (forall v, fr fx' v = (fr fx v && negb (mem v C))%bool) /\
    (forall v, nth v lb' 0 = if mem v C then nth (pos C v) arg 0 else nth v lb 0).
Proof.
  intros n C arg fx lb ND LF LL LA HL. unfold fix_solved.
  assert (G : forall m, m <= length C -> exists fx' lb', foldM (fun (fl : list bool * list nat) i => v <- rd C i ;; f <- wr (fst fl) v true ;; a <- rd arg i ;; l <- wr (snd fl) v a ;; Ret (f, l)) (seq 0 m) (fx, lb) = Ret (fx', lb') /\ length fx' = n /\ length lb' = n /\
    (forall v, fr fx' v = (fr fx v && negb (mem v (firstn m C)))%bool) /\ (forall v, nth v lb' 0 = if mem v (firstn m C) then nth (pos C v) arg 0 else nth v lb 0)).
  { induction m as [|m IH]; intros Hm. { exists fx, lb. cbn. repeat split; auto. intros; rewrite andb_true_r; auto. }
    destruct IH as (f & b & E & A & B & D & F); [lia|]. destruct (nth_error_lt _ C m) as (v & EV); [lia|]. destruct (nth_error_lt _ arg m) as (a & EA); [lia|].
    assert (Hv : v < n) by (apply HL; eapply nth_error_In; eauto).
    rewrite seq_S, foldM_app. cbn [Nat.add]. rewrite E. cbn [bind foldM]. rewrite (rd_Ret _ _ _ _ EV). cbn [bind fst snd]. rewrite wr_Ret by lia. cbn [bind]. rewrite (rd_Ret _ _ _ _ EA). cbn [bind]. rewrite wr_Ret by lia. cbn [bind].
    assert (FN : firstn (S m) C = firstn m C ++ [v]). { clear - EV. revert m EV. induction C as [|c C IH]; intros [|m] EV; cbn in *; try discriminate; [injection EV as ->; auto|]. f_equal. apply IH. auto. }
    eexists. eexists. split; [reflexivity|]. rewrite !length_upd. repeat split; auto; intros u; rewrite FN, mem_snoc.
    - rewrite fr_upd by lia. rewrite D, negb_orb, andb_assoc. auto.
    - destruct (Nat.eqb_spec u v) as [->|N]; [|rewrite nth_upd_neq, orb_false_r by auto; auto]. rewrite nth_upd_eq by lia. rewrite orb_true_r, (nth_pos C m v ND EV). symmetry. apply nth_error_nth. auto. }
  destruct (G (length C)) as (fx' & lb' & H); auto. exists fx', lb'. rewrite firstn_all in H. auto.
Qed.

Section S.
Variable T : Type.
Variable OP : oper T.
Variable ACC : accum T.
Variable fin : T -> Prop.
Hypothesis OL : op_laws fin OP.
Hypothesis AL : acc_laws fin OP ACC.
Variable g : gmv T.
Hypothesis W : wf_gmv g.
Hypothesis FG : fin_gmv fin g.
Variable solve_rooted : gmv T -> nat -> outcome (list T * list (list nat)).
Variable solve_free : gmv T -> outcome (list nat).
Variable MO : nat.
Hypothesis HMO : order_at_most MO g.
Hypothesis SR : rooted_exact fin OP ACC MO solve_rooted.
Hypothesis SF : free_exact fin OP ACC MO solve_free.
Notation n := (length (v_labels g)).
Notation nf := (length (v_factors g)).
Notation lab v := (nth v (v_labels g) 0).
Variables fix0 tf0 in_ ir : list bool.
Variable lab0 : list nat.
Hypothesis LF0 : length fix0 = n.
Hypothesis LL0 : length lab0 = n.
Hypothesis LT0 : length tf0 = nf.
Hypothesis LI0 : length in_ = n.
Hypothesis LR0 : length ir = n.
Hypothesis LB0 : forall v, v < n -> fr fix0 v = false -> nth v lab0 0 < lab v.
Notation fr0 := (fr fix0).
Notation fvars0 := (fvars T g fix0).
Notation isin v := (nth v in_ false = true).
Notation istf k := (nth k tf0 false = true).
Notation isroot v := (nth v ir false = true).
Notation share0 := (share0 T g fix0 tf0).
Notation edge0 := (edge0 T g fix0 tf0).
Hypothesis B1 : forall v, isin v -> fr0 v = true.
Hypothesis B2 : forall k v, istf k -> In v (fvars0 k) -> isin v.
Hypothesis B3 : forall v k, isin v -> ~ isroot v -> In v (fvars0 k) -> istf k.
Hypothesis B4 : forall a b, clos_refl_sym_trans nat share0 a b -> isroot a -> isroot b -> a = b.
Hypothesis B5 : forall c, ~ cycle edge0 c.
Notation einv := (einv T OP ACC fin g fix0 tf0 in_ ir lab0).

Lemma elim_var_ok : forall e v, einv e -> v < n -> exists e', elim_var T g solve_rooted solve_free in_ ir e v = Ret e' /\ einv e' /\ (isin v -> nth v (e_visited e') false = true) /\ (forall u, nth u (e_visited e) false = true -> nth u (e_visited e') false = true).
Proof.
  intros e var I Hvar. unfold elim_var. rewrite (rd_nth _ in_ var false) by lia. cbn [bind]. destruct (nth var in_ false) eqn:IN.
  2:{ cbn [bind]. exists e. split; auto. split; auto. split; auto. discriminate. }
  rewrite (rd_nth _ (e_visited e) var false) by (rewrite (ei_lv _ _ _ _ _ _ _ _ _ _ _ I); auto). cbn [bind]. destruct (nth var (e_visited e) false) eqn:VI.
  { exists e. split; auto. }
  pose proof (ei_lf _ _ _ _ _ _ _ _ _ _ _ I) as LF. pose proof (ei_lt _ _ _ _ _ _ _ _ _ _ _ I) as LT. pose proof (ei_lv _ _ _ _ _ _ _ _ _ _ _ I) as LV. pose proof (ei_ln _ _ _ _ _ _ _ _ _ _ _ I) as LN.
  pose proof (ei_ll _ _ _ _ _ _ _ _ _ _ _ I) as LL. pose proof (ei_ltt _ _ _ _ _ _ _ _ _ _ _ I) as LTT.
  rewrite wr_Ret by lia. cbn [bind].
  assert (S0 : forall k v, stf (e_tf e) k -> In v (fvars T g (e_fix e) k) -> istf k /\ In v (fvars0 k) /\ nth v (e_visited e) false = false).
  { intros k v A B. unfold stf in A. pose proof (efv0 T OP ACC fin g fix0 tf0 in_ ir lab0 e I k v B) as B'. apply (ei_tf _ _ _ _ _ _ _ _ _ _ _ I) in A. destruct A as [A1 A2]. split; auto. split; auto. apply not_true_iff_false. auto. }
  assert (SH : forall a b, clos_refl_sym_trans nat (sshare T g (e_fix e) (e_tf e)) a b -> clos_refl_sym_trans nat share0 a b).
  { intros a b H. induction H; [apply rst_step|apply rst_refl|apply rst_sym; auto|eapply rst_trans; eauto]. destruct H as (k & A & B & D). exists k. destruct (S0 k x A B) as (E1 & E2 & _). destruct (S0 k y A D) as (_ & E3 & _). auto. }
  assert (SI : forall a b, clos_refl_sym_trans nat share0 a b -> (isin a <-> isin b)).
  { intros a b H. induction H; [|tauto|tauto|tauto]. destruct H as (k & A & B & D). split; intros _; eapply B2; eauto. }
  destruct (search_ok T g W (e_fix e) (e_tf e) ir (e_visited e) LF LT LR0 LV) with (var := var) as (s & ES & ND & IV & LS & VS & EL & CL & HR & RT); auto.
  { intros a b (k & A & B & D). destruct (S0 k a A B) as (_ & _ & ->). destruct (S0 k b A D) as (_ & _ & ->). auto. }
  { apply (ei_fix _ _ _ _ _ _ _ _ _ _ _ I). split; auto. congruence. }
  rewrite ES. cbn [bind]. set (C := nat_sort (s_list s)). assert (PC : forall v, In v C <-> In v (s_list s)) by (intros v; split; apply Permutation_in; [apply Permutation_sym|]; apply nat_sort_perm).
  assert (MC : forall v, mem v (s_list s) = mem v C). { intros v. destruct (mem v C) eqn:M; [apply mem_In, PC, mem_In in M; auto|]. apply mem_false in M. apply mem_false. intros X. apply M, PC, X. }
  assert (SC : StronglySorted lt C) by (apply nat_sort_sorted; auto).
  assert (UC : forall v, In v C -> fr (e_fix e) v = true /\ ~ nth v (e_visited e) false = true /\ isin v).
  { intros v Hv. apply PC in Hv. destruct (EL v Hv) as (A & B & D). split; auto. split; [congruence|]. apply (SI var v); auto. }
  assert (FC : forall v, In v C -> fr (e_fix e) v = true) by (intros v Hv; apply (UC v Hv)).
  assert (CC : forall v k u, In v C -> stf (e_tf e) k -> In v (fvars T g (e_fix e) k) -> In u (fvars T g (e_fix e) k) -> In u C).
  { intros v k u A B D F. apply PC. apply (CL v k u); auto. apply PC; auto. }
  assert (BC : forall v, In v C -> v < n) by (intros v Hv; apply (fr_lt T g (e_fix e) LF); auto).
  assert (NS : mapM (rd (v_labels g)) C = Ret (map (fun v => lab v) C)). { apply mapM_Ret. intros v Hv. apply rd_nth. auto. }
  rewrite NS. cbn [bind]. destruct (number_ok T g (e_fix e) (e_tf e) in_ LF LT LI0 C SC FC (e_tt e) LTT) as (tt & E2 & LT2 & TT). rewrite E2. cbn [bind].
  destruct (gmt_ok T g W (e_fix e) (e_tf e) in_ (e_lab e) LF LT LI0) with (C := C) (hasRoot := s_hasRoot s) (tent0 := e_tent e) (tt := tt) as (K & ((tf' & tn') & fs) & E3 & G & GC); auto.
  { intros k v A B. destruct (S0 k v A B) as (A' & B' & _). apply (B2 k); auto. }
  rewrite E3. cbn [bind]. destruct G as [NK GK G1 G2 G3 G4 G5]. cbn [fst snd] in *.
  assert (HK : forall k, In k K <-> stf (e_tf e) k /\ exists v, In v C /\ In v (fvars T g (e_fix e) k)). { intros k. split; auto. intros (A & v & B & D). apply (GC k v); auto. }
  set (gmt := mkGmv (map (fun v => lab v) C) fs).
  assert (WT : wf_gmv gmt) by (apply (gmt_wf T g W (e_fix e) (e_tf e) (e_lab e) LF C SC FC CC K HK fs G5)).
  assert (FT : fin_gmv fin gmt) by (apply (gmt_fin T OP g W (e_fix e) (e_tf e) in_ (e_lab e) LF LT LI0 C SC FC CC (e_tent e) LN tt LT2 K HK fs G5 fin FG (ei_lab _ _ _ _ _ _ _ _ _ _ _ I))).
  assert (OT : order_at_most MO gmt) by (apply (gmt_order T g (e_fix e) (e_lab e) C K fs G5 MO HMO)).
  assert (AT : acyclic gmt). { apply (gmt_acyclic T g (e_fix e) (e_tf e) (e_lab e) C SC CC K NK HK fs G5 edge0); auto. intros k v A B. destruct (S0 k v A B) as (A' & B' & _). cbn. auto. }
  assert (CT : connected gmt). { apply (gmt_connected T g (e_fix e) (e_tf e) (e_lab e) C SC CC K HK fs G5 var); [apply PC; auto|]. intros v Hv. apply PC in Hv. apply (EL v Hv). }
  assert (GL : forall z, labeling g z -> labeling gmt (at_vars z C)) by (intros z HZ; apply (gmt_labeling T g (e_fix e) LF C FC fs z HZ)).
  assert (GT : forall z, labeling g z -> agrees T g (e_fix e) (e_lab e) z -> total OP gmt (at_vars z C) = big T OP K (fun k => val T OP g k z)).
  { intros z HZ AZ. apply (gmt_total T OP g W (e_fix e) (e_tf e) in_ (e_lab e) LF LT LI0 C SC FC CC (e_tent e) LN tt LT2 K HK fs G5 fin FG (ei_lab _ _ _ _ _ _ _ _ _ _ _ I) OL z HZ). exact AZ. }
  assert (GW : forall w, labeling gmt w -> length w = length C) by (intros w; apply (gmt_length T g C fs w)).
  assert (GS : forall z w, labeling g z -> labeling gmt w -> labeling g (spread T g C z w) /\ at_vars (spread T g C z w) C = w).
  { intros z w HZ HW. split; [apply (spread_labeling T g C fs z w HZ HW)|]. apply (spread_C T g (e_fix e) (e_tf e) in_ LF LT LI0 C SC FC (e_tent e) LN tt LT2). apply GW; auto. }
  assert (VS' : forall v, nth v (s_visited s) false = nth v (e_visited e) false || mem v C) by (intros v; rewrite VS, MC; auto).
  assert (VV : nth var (s_visited s) false = true) by (rewrite VS, orb_true_iff, mem_In; auto).
  assert (VW : forall u, nth u (e_visited e) false = true -> nth u (s_visited s) false = true) by (intros u Hu; rewrite VS, Hu; auto).
  destruct (s_hasRoot s) eqn:HS.
  - destruct (RT eq_refl) as [RI RR]. apply PC in RI. set (root := s_root s) in *. rewrite (rd_nth _ tt root 0) by (rewrite LT2; auto). cbn [bind]. rewrite TT by auto.
    assert (LR : nth (pos C root) (v_labels gmt) 0 = lab root). { cbn [gmt v_labels]. apply nth_error_nth. apply (map_nth_error (fun v => lab v) (pos C root) C). apply pos_nth. auto. }
    destruct (SR gmt (pos C root) WT FT OT AT CT) as (vals & cands & E4 & V1 & V2 & V3). { cbn [gmt v_labels]. rewrite map_length. apply pos_lt. auto. }
    rewrite LR in *. rewrite E4. cbn [bind]. destruct (fix_dummies_ok n root C (e_fix e) (e_lab e) LF LL BC) as (fx & lb & E5 & X1 & X2 & X3 & X4). rewrite E5. cbn [bind].
    eexists. split; [reflexivity|]. split; [|split; auto].
    apply (rooted_step T OP ACC fin OL AL g W FG fix0 tf0 in_ ir lab0 LF0 LT0 LI0 LR0 B1 B3 e I C SC UC CC K NK HK) with (gmt := gmt); auto.
    intros v Hv Rv. apply PC in Hv. apply PC in RI. apply B4; auto. apply SH. eapply rst_trans; [apply rst_sym|]; apply EL; auto.
  - destruct (SF gmt WT FT OT AT CT) as (arg & E4 & OA). { cbn [gmt v_labels]. rewrite map_length. apply PC in IV. destruct C; [destruct IV|cbn; lia]. }
    rewrite E4. cbn [bind]. destruct OA as [OA1 OA2]. destruct (fix_solved_ok n C arg (e_fix e) (e_lab e) (C_nodup C SC) LF LL (GW arg OA1) BC) as (fx & lb & E5 & X1 & X2 & X3 & X4). rewrite E5. cbn [bind].
    eexists. split; [reflexivity|]. split; [|split; auto].
    apply (free_step T OP ACC fin OL AL g W FG fix0 tf0 in_ ir lab0 LF0 LT0 LI0 LR0 B1 B3 e I C UC CC K NK HK) with (gmt := gmt) (arg := arg); auto.
    + split; auto.
    + intros v Hv Rv. apply PC in Hv. assert (X : existsb (fun v => nth v ir false) (s_list s) = true) by (apply existsb_exists; eauto). congruence.
Qed.
Theorem elim_run_ok : forall l e, einv e -> (forall v, In v l -> v < n) -> exists e', foldM (elim_var T g solve_rooted solve_free in_ ir) l e = Ret e' /\ einv e' /\ (forall v, In v l -> isin v -> nth v (e_visited e') false = true) /\ (forall u, nth u (e_visited e) false = true -> nth u (e_visited e') false = true).
Proof.
  induction l as [|v l IH]; intros e I H. { exists e. cbn. repeat (split; auto; try contradiction). }
  destruct (elim_var_ok e v I) as (e1 & E1 & I1 & V1 & M1); [apply H; left; auto|]. cbn [foldM]. rewrite E1. cbn [bind].
  destruct (IH e1 I1) as (e2 & E2 & I2 & V2 & M2); [intros; apply H; right; auto|]. exists e2. split; auto. split; auto. split; auto. intros u [<-|Hu] X; auto.
Qed.
Lemma nth_false : forall i m, nth i (repeat false m) false = false.
Proof. intros i m. revert i. induction m as [|m IH]; intros [|i]; cbn; auto. Qed.
Lemma start_total : forall z, labeling g z -> total OP (reduced T OP g (repeat false nf) []) z = total OP g z.
Proof.
  intros z HZ. rewrite (reduced_total T OP fin OL g) by (rewrite ?repeat_length; auto).
  cbn [bl fold_right]. rewrite (ol_comm _ _ OL), (ol_unit _ _ OL); try apply (ol_neutral _ _ OL); try (apply (big_fin T OP fin OL); intros; apply (val_fin T OP fin OL); auto).
  rewrite (total_big T OP fin OL) by auto. f_equal. unfold kept. rewrite (filter_ext _ (fun _ => true)) by (intros; rewrite nth_false; auto). induction (seq 0 nf) as [|a l IH]; cbn; auto. f_equal; auto.
Qed.
Theorem elim_start : einv (mkElim fix0 lab0 tf0 (repeat false nf) [] (repeat 0 n) (repeat false n)).
Proof.
  constructor; cbn [e_fix e_lab e_tf e_tent e_tents e_tt e_visited]; rewrite ?repeat_length; auto; intros; rewrite ?nth_false in *; try discriminate.
  - split; [intros; split; auto; discriminate|tauto].
  - split; [intros; split; auto; intros; rewrite nth_false; discriminate|tauto].
  - cbn [tlz fold_left]. split; auto. split; auto. split; auto. symmetry. apply start_total; auto.
  - exists z. split; auto. split; auto. split; auto. rewrite start_total by auto. apply (al_irrefl _ _ _ AL). rewrite (total_big T OP fin OL) by auto. apply (big_fin T OP fin OL); intros; apply (val_fin T OP fin OL); auto.
Qed.
End S.
