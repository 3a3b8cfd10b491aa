(** SelfFusion: invariant of the calls of the visitor. *)
From Verif Require Import Base Values GmView GmViewSpec ShapeSpec GmViewProofs FuseSpec FuseMoves FmModel FmSpec FmProofs FmProps FbiSpec FbiProofs SfModel SfSpec.

Section Sf.
Variables (T : Type) (fin : T -> Prop) (eqv : T -> T -> bool) (OP : oper T) (ACC : accum T) (g : gmv T) (solvers : hlsolvers T) (kind : fusionSolver) (d : nat) (p : sfparam) (stop : nat -> bool).
Let n := length (v_labels g).
Hypothesis OL : op_laws fin OP.
Hypothesis AL : acc_laws fin OP ACC.
Hypothesis AS : acc_select fin ACC.
Hypothesis W : wf_gmv g.
Hypothesis FG : fin_gmv fin g.
Hypothesis HD : order_at_most d g.
Hypothesis SO : solvers_ok d solvers kind.
Hypothesis FN : 0 < sp_fuseNth p.

Lemma asym2 : forall a b, fin a -> fin b -> a_bop ACC a b = true -> a_bop ACC b a = false.
Proof. intros a b Fa Fb H. destruct (a_bop ACC b a) eqn:E; auto. pose proof (al_trans _ _ _ AL a b a Fa Fb Fa H E) as X. rewrite (al_irrefl _ _ _ AL a Fa) in X. discriminate. Qed.

(** A fusion with any values attached to the two labelings. *)
Section Any.
Variables (A B : list nat) (vA vB : T).
Hypothesis LA : labeling g A.
Hypothesis LB : labeling g B.
Hypothesis FA : fin vA.
Hypothesis FB : fin vB.
Definition okay (r : T * list nat) : Prop := fin (fst r) /\ labeling g (snd r) /\ a_bop ACC vA (fst r) = false /\ a_bop ACC vB (fst r) = false.
Lemma finish_any : forall m z, set_up T ACC g A B m -> fm_vA m = vA -> fm_vB m = vB -> fused A B z ->
  exists r, fm_finish T OP ACC g m z = Ret r /\ okay r.
Proof.
  intros m z S VA VB HZ. pose proof (su_best _ _ _ _ _ m S) as VC. rewrite VA, VB in VC. assert (LZ : labeling g z) by (apply (fused_labeling T g A B LA LB); exact HZ).
  assert (BV : fin (fm_vBest m) /\ a_bop ACC vA (fm_vBest m) = false /\ a_bop ACC vB (fm_vBest m) = false).
  { unfold fm_vBest. rewrite VA, VB, VC. destruct (a_bop ACC vA vB) eqn:E; cbn [negb]; (split; [assumption|]); split; try (apply (al_irrefl _ _ _ AL); assumption); try exact E; apply asym2; assumption. }
  destruct BV as (B1 & B2 & B3). assert (LBest : labeling g (fm_best m)) by (unfold fm_best; rewrite (su_A _ _ _ _ _ m S), (su_B _ _ _ _ _ m S); destruct (fm_bestB m); assumption).
  unfold fm_finish. rewrite v_evaluate_total by (auto; apply (labeling_length T g z LZ)). cbn [bind]. destruct (a_bop ACC (fm_vBest m) (total OP g z)) eqn:E.
  - unfold copy_into. rewrite (labeling_length T g _ LBest), (labeling_length T g z LZ), Nat.leb_refl. rewrite <- (labeling_length T g z LZ), skipn_all, app_nil_r. cbn [bind]. eexists. split; [reflexivity|]. unfold okay. cbn [fst snd]. auto.
  - eexists. split; [reflexivity|]. assert (FZ : fin (total OP g z)) by (apply total_fin; assumption). unfold okay. cbn [fst snd]. split; [exact FZ|]. split; [exact LZ|]. split; apply (al_negtrans _ _ _ AL _ (fm_vBest m)); assumption.
Qed.
Lemma hl_any : forall out, length out = n -> exists r z, hl_fuse T OP ACC g solvers kind (fm_vectors0 T g) A B out vA vB = Ret (r, z) /\ length z = n /\
  match r with None => A = B | Some v => okay (v, z) end.
Proof.
  intros out LO. assert (L1 : length (fst (fm_vectors0 T g)) = n) by apply repeat_length. assert (L2 : length (snd (fm_vectors0 T g)) = n) by apply repeat_length.
  destruct (setup_ok T ACC g A B LA LB (fm_vectors0 T g) out vA vB L1 L2 LO) as (m & E & S & VA & VB). unfold hl_fuse. rewrite E. cbn [bind].
  rewrite (su_n _ _ _ _ _ _ S). fold n. destruct (Nat.ltb_spec 0 (pos A B n)) as [HP|HZ].
  - assert (X : exists v z, (match kind with
                 | QpboFusion => if hl_order T g <=? 2 then fm_fuseQpbo T OP ACC g (hl_qpbo solvers) m else fm_fuse T OP ACC g (hl_hqpbo solvers) true m
                 | LazyFlipperFusion => fm_fuse T OP ACC g (hl_lf solvers) true m
                 | CplexFusion => fm_fuse T OP ACC g (hl_cplex solvers) true m end) = Ret (v, z) /\ okay (v, z)).
    2:{ destruct X as (v & z & -> & O). cbn [bind]. exists (Some v), z. split; [reflexivity|]. split; [apply (labeling_length T g z); apply O|exact O]. }
    destruct (fill_ok T OP ACC g A B W m S HP) as (F & EF & ND & HF).
    assert (FU : forall solver, returns_labelings d solver -> exists v z, fm_fuse T OP ACC g solver true m = Ret (v, z) /\ okay (v, z)).
    { intros solver HR. unfold fm_fuse. rewrite EF. cbn [bind]. set (sub := mkGmv _ _).
      assert (SOK : start_ok sub (Some (repeat (fm_bestLabel m) (fm_n m)))). { cbn. rewrite (su_n _ _ _ _ _ _ S). apply start_labeling. unfold fm_bestLabel. destruct (fm_bestB m); lia. }
      pose proof (sub_binary T OP g A B W F HF d HD) as SB. destruct (HR sub _ SB SOK) as (l & El & Ll). rewrite El. cbn [bind]. rewrite (assign_labels T ACC g A B LA LB m S l Ll). cbn [bind].
      destruct (finish_any m _ S VA VB (unfuse_fused T g A B LA l)) as ([v z] & R & O). exists v, z. auto. }
    destruct (match kind with QpboFusion => hl_order T g <=? 2 | _ => false end) eqn:Q.
    + destruct kind; try discriminate Q. rewrite Q. apply Nat.leb_le in Q. assert (O2 : order_at_most 2 g) by (eapply Forall_impl; [|apply (hl_order_ok T g (fm_vectors0 T g) out L1 L2 LO)]; cbn; intros; lia).
      unfold fm_fuseQpbo. rewrite EF. cbn [bind v_factors]. destruct (terms_ok T OP g A B W O2 F) as (terms & ET & _ & _); [intros k; apply HF|]. rewrite ET. cbn [bind]. rewrite (su_n _ _ _ _ _ _ S).
      rewrite (assign_ok T ACC g A B LA LB m S _ (fun lvi => hl_qpbo solvers (pos A B n) terms (fm_bestLabel m) lvi)) by reflexivity. cbn [bind].
      destruct (finish_any m _ S VA VB (assign_fused T ACC g A B LA LB m S (fun lvi => hl_qpbo solvers (pos A B n) terms (fm_bestLabel m) lvi))) as ([v z] & R & O). exists v, z. auto.
    + assert (HR' : returns_labelings d (the_solver solvers kind)).
      { destruct SO as [H|[-> ->]]; [exact H|]. exfalso. apply Nat.leb_gt in Q. apply (Nat.lt_irrefl 2). eapply Nat.lt_le_trans; [exact Q|]. clear - HD. unfold hl_order. assert (G : forall (l : list (list nat * (list nat -> T))) a, a <= 2 -> Forall (fun fc => length (fst fc) <= 2) l -> fold_left (fun m fc => Nat.max m (length (fst fc))) l a <= 2); [|apply G; [lia|exact HD]]. induction l as [|fc l IH]; intros a Ha F; cbn [fold_left]; [exact Ha|]. inversion F; subst. apply IH; [lia|assumption]. }
      destruct kind; cbn [the_solver] in HR'; try rewrite Q; apply FU; exact HR'.
  - exists None, (fm_res m). split; [reflexivity|]. rewrite (su_res _ _ _ _ _ _ S). split; [apply (labeling_length T g A LA)|].
    apply (pos_zero T g A B (fm_vectors0 T g) out LA LB L1 L2 LO). fold n. lia.
Qed.
End Any.

(** ** The calls of the visitor *)
Notation zeros := (repeat 0 n).
Notation shown_ok := (fun sh : list nat * T * T => labeling g (fst (fst sh)) /\ snd (fst sh) = total OP g (fst (fst sh))).
(** The value belongs to the labeling, and none of the labelings used so far is better. *)
Definition sound (pre : list (list nat * T * T)) (s : sf T) : Prop :=
  sf_val s = total OP g (sf_best s) /\
  forall j sh, nth_error pre j = Some sh -> j mod sp_fuseNth p = 0 -> a_bop ACC (total OP g (fst (fst sh))) (sf_val s) = false.
Definition good (pre : list (list nat * T * T)) (s : sf T) : Prop :=
  labeling g (sf_best s) /\ length (sf_out s) = n /\ sf_iter s = length pre /\ Forall shown_ok pre /\
  (pre = [] -> sf_val s = a_neutral ACC /\ sf_out s = zeros) /\
  (pre <> [] -> fin (sf_val s)) /\
  (forall sh, nth_error pre 0 = Some sh -> a_bop ACC (total OP g (fst (fst sh))) (sf_val s) = false /\ (fst (fst sh) = zeros -> sound pre s)).
Lemma zeros_ok : labeling g zeros.
Proof. apply labeling_nth. rewrite repeat_length. split; auto. intros v Hv. rewrite nth_repeat. destruct W as [_ P]. unfold positive in P. rewrite Forall_forall in P. apply P. apply nth_In. exact Hv. Qed.
Lemma nth_pre : forall (pre : list (list nat * T * T)) sh j x, nth_error (pre ++ [sh]) j = Some x -> nth_error pre j = Some x \/ j = length pre /\ x = sh.
Proof.
  intros pre sh j x H. destruct (Nat.lt_ge_cases j (length pre)) as [L|L]; [left; rewrite nth_error_app1 in H; auto|]. rewrite nth_error_app2 in H by exact L.
  destruct (j - length pre) as [|k] eqn:E; [right; split; [lia|cbn in H; congruence]|destruct k; discriminate H].
Qed.
Lemma copy_same : forall a r, length a = n -> length r = n -> copy_into a r = Ret a.
Proof. intros a r La Lr. unfold copy_into. rewrite La, Lr, Nat.leb_refl. rewrite <- Lr, skipn_all, app_nil_r. reflexivity. Qed.
(** Going from a value to one that is not worse. *)
Lemma sound_next : forall pre sh s s', pre <> [] -> Forall shown_ok pre -> fin (sf_val s) -> fin (sf_val s') -> a_bop ACC (sf_val s) (sf_val s') = false ->
  sound pre s -> sf_val s' = total OP g (sf_best s') -> (length pre mod sp_fuseNth p = 0 -> a_bop ACC (total OP g (fst (fst sh))) (sf_val s') = false) -> sound (pre ++ [sh]) s'.
Proof.
  intros pre sh s s' NE SH F F' B [S1 S2] E L. split; [exact E|]. intros j x H Hj. apply nth_pre in H. destruct H as [H|[-> ->]]; [|apply L; exact Hj].
  assert (FX : fin (total OP g (fst (fst x)))). { rewrite Forall_forall in SH. specialize (SH x (nth_error_In _ _ H)). apply total_fin; auto. apply SH. }
  apply (al_negtrans _ _ _ AL _ (sf_val s)); auto. apply (S2 j x H Hj).
Qed.
Lemma visit_ok : forall pre s sh, good pre s -> shown_ok sh -> exists s', sf_visit T eqv OP ACC g solvers kind p stop s sh = Ret s' /\ good (pre ++ [sh]) s'.
Proof.
  intros pre s [[x v] b] (G1 & G2 & G3 & G4 & G5 & G6 & G7) SH. pose proof SH as [LX EV]. cbn [fst snd] in LX, EV. pose proof (labeling_length T g x LX) as LN. assert (FV : fin v) by (rewrite EV; apply total_fin; assumption).
  assert (SH' : Forall shown_ok (pre ++ [(x, v, b)])) by (apply Forall_app; split; [exact G4|constructor; [exact SH|constructor]]).
  unfold sf_visit. rewrite G3. destruct pre as [|sh0 pre].
  - destruct (G5 eq_refl) as [V0 O0]. cbn [length Nat.eqb]. rewrite V0. rewrite (proj1 (al_neutral _ _ AS v FV)). rewrite copy_same by assumption. cbn [bind]. eexists. split; [reflexivity|].
    unfold good, sound. cbn [sf_best sf_val sf_out sf_iter app length]. rewrite O0. split; [apply zeros_ok|]. split; [apply repeat_length|]. split; [reflexivity|]. split; [exact SH'|]. split; [discriminate|]. split; [intros _; exact FV|].
    assert (B0 : a_bop ACC (total OP g x) v = false) by (rewrite <- EV; apply (al_irrefl _ _ _ AL); exact FV).
    intros sh H. injection H as <-. cbn [fst]. split; [exact B0|]. intros E. split; [rewrite EV, E; reflexivity|]. intros j sh H _. destruct j as [|j]; [|destruct j; discriminate H]. injection H as <-. exact B0.
  - set (pre' := sh0 :: pre) in *. assert (NE : pre' <> []) by discriminate. specialize (G6 NE). replace (length pre' =? 0) with false by reflexivity. rewrite (proj2 (Nat.eqb_neq (sp_fuseNth p) 0)) by lia.
    assert (P0 : forall q sh, nth_error (pre' ++ [q]) 0 = Some sh -> nth_error pre' 0 = Some sh) by (intros q sh H; exact H).
    assert (LP : length (pre' ++ [(x, v, b)]) = S (length pre')) by (rewrite app_length; cbn [length]; lia).
    assert (FX : forall sh, nth_error pre' 0 = Some sh -> fin (total OP g (fst (fst sh)))) by (intros sh H; rewrite Forall_forall in G4; specialize (G4 sh (nth_error_In _ _ H)); apply total_fin; auto; apply G4).
    destruct (Nat.eqb_spec (length pre' mod sp_fuseNth p) 0) as [M|M].
    + destruct (hl_any (sf_best s) x (sf_val s) v G1 LX G6 FV (sf_out s) G2) as (r & z & E & LZ & R). rewrite E. cbn [bind]. destruct r as [w|].
      * destruct R as (R1 & R2 & R3 & R4). cbn [fst snd] in *. rewrite copy_same by (auto; apply (labeling_length T g _ G1)). cbn [bind]. eexists. split; [reflexivity|].
        unfold good. cbn [sf_best sf_val sf_out sf_iter]. split; [exact R2|]. split; [exact LZ|]. split; [rewrite LP; reflexivity|]. split; [exact SH'|]. split; [intros H; destruct pre'; discriminate H|]. split; [intros _; exact R1|].
        intros sh H. apply P0 in H. destruct (G7 sh H) as [G7a G7b]. split; [apply (al_negtrans _ _ _ AL _ (sf_val s)); auto|]. intros Z. specialize (G7b Z).
        apply (sound_next pre' (x, v, b) s); cbn [sf_val sf_best]; auto.
        -- pose proof (proj1 G7b) as C. rewrite C, EV in E.
           assert (L1 : length (fst (fm_vectors0 T g)) = n) by apply repeat_length. assert (L2 : length (snd (fm_vectors0 T g)) = n) by apply repeat_length.
           destruct (C57_hl T fin OP ACC g (sf_best s) x (fm_vectors0 T g) (sf_out s) OL AL W FG G1 LX L1 L2 G2 solvers kind d HD SO) as [H1 H2].
           destruct (list_eq_dec Nat.eq_dec (sf_best s) x) as [Q|Q]; [rewrite (H1 Q) in E; discriminate E|]. destruct (H2 Q) as (w' & z' & E' & (GF & _) & _). rewrite E in E'. injection E' as <- <-. exact GF.
        -- intros _. cbn [fst]. rewrite <- EV. exact R4.
      * cbn [bind]. eexists. split; [reflexivity|]. unfold good. cbn [sf_best sf_val sf_out sf_iter]. split; [exact G1|]. split; [exact LZ|]. split; [rewrite LP; reflexivity|]. split; [exact SH'|]. split; [intros H; destruct pre'; discriminate H|]. split; [intros _; exact G6|].
        intros sh H. apply P0 in H. destruct (G7 sh H) as [G7a G7b]. split; [exact G7a|]. intros Z. specialize (G7b Z).
        apply (sound_next pre' (x, v, b) s); cbn [sf_val sf_best]; auto; try (apply (al_irrefl _ _ _ AL); exact G6); [apply G7b|]. intros _. cbn [fst]. rewrite <- R, <- (proj1 G7b). apply (al_irrefl _ _ _ AL). exact G6.
    + cbn [bind]. eexists. split; [reflexivity|]. unfold good. cbn [sf_best sf_val sf_out sf_iter]. split; [exact G1|]. split; [exact G2|]. split; [rewrite LP, G3; reflexivity|]. split; [exact SH'|]. split; [intros H; destruct pre'; discriminate H|]. split; [intros _; exact G6|].
      intros sh H. apply P0 in H. destruct (G7 sh H) as [G7a G7b]. split; [exact G7a|]. intros Z. specialize (G7b Z).
      apply (sound_next pre' (x, v, b) s); cbn [sf_val sf_best]; auto; try (apply (al_irrefl _ _ _ AL); exact G6); [apply G7b|]. intros; contradiction.
Qed.
Lemma visits_ok : forall shows pre s, good pre s -> Forall shown_ok shows ->
  exists s' k, sf_visits T eqv OP ACC g solvers kind p stop s shows (length pre) = Ret (s', k) /\ length pre <= k <= length (pre ++ shows) /\ good (firstn k (pre ++ shows)) s' /\
    (shows <> [] -> length pre < k) /\ (k < length (pre ++ shows) -> sf_goes_on T p s' = false).
Proof.
  induction shows as [|sh shows IH]; intros pre s G F; cbn [sf_visits].
  - exists s, (length pre). rewrite app_nil_r, firstn_all. split; [reflexivity|]. split; [lia|]. split; [exact G|]. split; [contradiction|lia].
  - inversion F as [|? ? F1 F2]; subst. destruct (visit_ok pre s sh G F1) as (s1 & E & G1). rewrite E. cbn [bind]. replace (pre ++ sh :: shows) with ((pre ++ [sh]) ++ shows) by (rewrite <- app_assoc; reflexivity).
    assert (LP : length (pre ++ [sh]) = S (length pre)) by (rewrite app_length; cbn [length]; lia). destruct (sf_goes_on T p s1) eqn:GO.
    + destruct (IH (pre ++ [sh]) s1 G1 F2) as (s' & k & E' & K & G' & K2 & K3). rewrite LP in *. exists s', k. split; [exact E'|]. split; [lia|]. split; [exact G'|]. split; [lia|exact K3].
    + exists s1, (S (length pre)). split; [reflexivity|]. rewrite <- LP. split; [pose proof (app_length (pre ++ [sh]) shows); lia|]. rewrite firstn_app, Nat.sub_diag, firstn_O, app_nil_r, firstn_all. split; [exact G1|]. split; [lia|]. intros _. exact GO.
Qed.
Lemma start_good : forall best, labeling g best -> good [] (mkSf best (a_neutral ACC) (a_ineutral ACC) zeros 0 0 (stop 0) 1).
Proof.
  intros best L. unfold good. cbn [sf_best sf_val sf_out sf_iter length]. split; [exact L|]. split; [apply repeat_length|]. split; [reflexivity|]. split; [constructor|]. split; [auto|]. split; [contradiction|]. intros sh H. discriminate H.
Qed.
Lemma arg_ok : forall s, labeling g (sf_best s) -> sf_arg T g s = Ret (sf_best s).
Proof.
  intros s L. unfold sf_arg. fold n. rewrite <- (labeling_length T g _ L : length (sf_best s) = n). rewrite (mapM_Ret _ (fun i => nth i (sf_best s) 0)) by (intros i Hi; apply in_seq in Hi; apply rd_nth; lia). rewrite map_nth_seq. reflexivity.
Qed.
End Sf.
