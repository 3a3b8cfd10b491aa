(** Proofs for tentacle elimination: building the model that is left equals building one from the reduced model. *)
From Coq Require Import Sorted Relations Permutation Relation_Operators.
From Verif Require Import Base Values GmView GmViewSpec GmViewProofs ShapeSpec UtilModel FunctionViewsModel MovemakerModel MovemakerSpec FactorGraphModel FactorGraphSpec SubmodelModel SubmodelProps ManipulatorModel ManipulatorSpec ManipulatorRep ManipulatorExpand MpModel MpSpec DecompForest GmProofs IcmProofs DpProofs ManipulatorProofs ManipulatorSubs ManipulatorProps TentacleModel TentacleSpec TentaclePeel TentacleTree TentacleComp TentacleGmt TentacleRun TentacleElim TentacleLoop TentacleLock.
#[local] Arguments nth_error : simpl never.

(** ** Loops over indices as loops over elements *)
Lemma foldM_idx : forall A B (h : B -> nat -> outcome B) (f : B -> A -> outcome B) (L : list A) st,
  (forall i a st, nth_error L i = Some a -> h st i = f st a) -> foldM h (seq 0 (length L)) st = foldM f L st.
Proof.
  intros A B h f L st H.
  assert (G : forall L a st, (forall i x st, nth_error L i = Some x -> h st (a + i) = f st x) -> foldM h (seq a (length L)) st = foldM f L st).
  { clear. induction L as [|x L IH]; intros a st H; auto. cbn [length seq foldM]. rewrite <- (H 0 x st eq_refl), Nat.add_0_r. destruct (h st a) as [st'| | |]; auto. cbn [bind]. apply IH. intros i y st2 E. rewrite <- (H (S i) y st2 E). f_equal. lia. }
  apply G. auto.
Qed.
Lemma foldM_ext_In : forall A B (f h : B -> A -> outcome B) L st, (forall a st, In a L -> f st a = h st a) -> foldM f L st = foldM h L st.
Proof.
  intros A B f h L. induction L as [|a L IH]; intros st H; auto. cbn [foldM]. rewrite (H a st) by (left; auto). destruct (h st a) as [s'| | |]; auto. cbn [bind]. apply IH. intros; apply H; right; auto.
Qed.
Lemma foldM_map : forall A C B (f : B -> A -> outcome B) (q : C -> A) L st, foldM f (map q L) st = foldM (fun st c => f st (q c)) L st.
Proof. intros A C B f q L. induction L as [|a L IH]; intros st; auto. cbn [map foldM]. destruct (f st (q a)) as [s'| | |]; auto. cbn [bind]. apply IH. Qed.
Lemma foldM_filter : forall A B (f : B -> A -> outcome B) (p : A -> bool) L st, foldM f (filter p L) st = foldM (fun st a => if p a then f st a else Ret st) L st.
Proof. intros A B f p L. induction L as [|a L IH]; intros st; auto. cbn [filter foldM]. destruct (p a); cbn [bind]; [cbn [foldM]; destruct (f st a) as [s'| | |]; auto; cbn [bind]; apply IH|apply IH]. Qed.

Section S.
Variable T : Type.
Variable OP : oper T.
Variable g : gmv T.
Variable tn : list bool.
Variable ts : list (tent T).
Notation n := (length (v_labels g)).
Notation nf := (length (v_factors g)).
Hypothesis LN : length tn = nf.
Notation g' := (reduced T OP g tn ts).
Notation nf' := (length (v_factors (reduced T OP g tn ts))).
Definition erase (m : man T) : man T := mkMan (a_locked m) (a_fix m) (a_lab m) (repeat false nf') (a_mgm m) (a_subs m) (a_v2s m).

Lemma nth_error_comb : forall A B (l1 : list A) (l2 : list B) i p, nth_error (combine l1 l2) i = Some p -> nth_error l1 i = Some (fst p) /\ nth_error l2 i = Some (snd p).
Proof.
  intros A B l1. induction l1 as [|x l1 IH]; intros [|y l2] [|i] p E; try discriminate; [injection E as <-; auto|]. apply (IH l2 i p E).
Qed.
(** A loop over the factors that skips the marked ones. *)
Lemma loop_g : forall B (F : B -> list nat * (list nat -> T) -> outcome B) st,
  foldM (fun st k => t <- rd tn k ;; if t : bool then Ret st else fc <- rd (v_factors g) k ;; F st fc) (seq 0 nf) st = foldM F (kept_factors T g tn) st.
Proof.
  intros B F st. unfold kept_factors. rewrite foldM_map, foldM_filter. replace nf with (length (combine tn (v_factors g))) by (rewrite combine_length, LN; lia). apply foldM_idx.
  intros i [t fc] s' E. apply nth_error_comb in E. destruct E as [E1 E2]. cbn [fst snd] in *. rewrite (rd_Ret _ _ _ _ E1). cbn [bind]. destruct t; auto. cbn [negb]. rewrite (rd_Ret _ _ _ _ E2). auto.
Qed.
Lemma loop_g' : forall B (F : B -> list nat * (list nat -> T) -> outcome B) st,
  foldM (fun st k => t <- rd (repeat false nf') k ;; if t : bool then Ret st else fc <- rd (v_factors g') k ;; F st fc) (seq 0 nf') st = bind (foldM F (kept_factors T g tn) st) (fun st => foldM (fun st t => F st (root_factor T OP t)) ts st).
Proof.
  intros B F st. rewrite (foldM_idx _ _ _ F (v_factors g')).
  - cbn [reduced v_factors]. rewrite foldM_app. destruct (foldM F (kept_factors T g tn) st) as [s'| | |]; auto. cbn [bind]. apply foldM_map.
  - intros i fc s' E. assert (i < nf') by (apply nth_error_Some; congruence). rewrite (rd_nth _ _ i false) by (rewrite repeat_length; auto). cbn [bind]. rewrite nth_repeat. rewrite (rd_Ret _ _ _ _ E). auto.
Qed.

Variable m : man T.
Hypothesis HT : a_tent m = tn.
Hypothesis HR : forall t, In t ts -> t_root t < n /\ nth_error (a_fix m) (t_root t) = Some false.

(** A root as a factor of the reduced model. *)
Lemma root_split : forall t v2s varMap lk mg ss, In t ts -> length v2s = n -> man_split T (mkMan lk (a_fix m) (a_lab m) (repeat false nf') mg ss v2s) varMap [t_root t] = (j <- rd varMap (t_root t) ;; Ret ([j], [], nth (t_root t) v2s 0)).
Proof.
  intros t v2s varMap lk mg ss It LV. destruct (HR t It) as [RL RF]. unfold man_split. cbn [length seq foldM a_fix a_lab a_v2s]. rewrite (rd_Ret _ [t_root t] 0 (t_root t)) by auto. cbn [bind]. rewrite (rd_Ret _ _ _ _ RF). cbn [bind].
  destruct (rd varMap (t_root t)) as [j| | |]; auto. cbn [bind]. rewrite (rd_nth _ v2s (t_root t) 0) by lia. auto.
Qed.
Lemma root_facv : forall t, In t ts -> factor_facv T g' (root_factor T OP t) = Ret (mkFacv [nth (t_root t) (v_labels g) 0] (fun l => nth (nth 0 l 0) (t_fun t) (o_neutral OP))).
Proof. intros t It. destruct (HR t It) as [RL _]. unfold factor_facv. cbn [root_factor fst snd reduced v_labels mapM]. rewrite (rd_nth _ _ _ 0) by auto. auto. Qed.
Lemma root_fun_ok : forall t, In t ts -> root_fun T OP g t = Ret (SView (mkFacv [nth (t_root t) (v_labels g) 0] (fun l => nth (nth 0 l 0) (t_fun t) (o_neutral OP)))).
Proof. intros t It. destruct (HR t It) as [RL _]. unfold root_fun. rewrite (rd_nth _ _ _ 0) by auto. auto. Qed.

(** ** The model *)
Definition fac_body (m : man T) (varMap : list nat) (st : subgm T * T) (fc : list nat * (list nat -> T)) : outcome (subgm T * T) :=
  let '(s, c) := st in
  f <- factor_facv T g fc ;;
  ' (mv, fx, _) <- man_split T m varMap (fst fc) ;;
  if length fx =? 0 then s <- sub_addFactor T s (SView f) mv ;; Ret (s, c)
  else if length fx =? length (fst fc) then c <- man_const T OP m (fst fc) f c ;; Ret (s, c)
  else v <- vf_new f fx ;; s <- sub_addFactor T s (SFix v) mv ;; Ret (s, c).
Lemma model_sim : length (a_v2s m) = n -> forall b, buildModifiedModel T OP g' FIX (erase m) = Ret (mkMan true (a_fix m) (a_lab m) (repeat false nf') b (a_subs m) (a_v2s m)) ->
  tent_model T OP g FIX m ts = Ret (mkMan true (a_fix m) (a_lab m) tn b (a_subs m) (a_v2s m)).
Proof.
  intros LV b. unfold buildModifiedModel, tent_model. change (v_labels g') with (v_labels g). cbn [erase a_fix a_lab a_tent a_subs a_v2s].
  match goal with |- context [bind (foldM ?f (seq 0 n) (repeat 0 n, 0)) _] => destruct (foldM f (seq 0 n) (repeat 0 n, 0)) as [[varMap nv]| | |] end; try discriminate. cbn [bind].
  match goal with |- context [bind (foldM ?f (seq 0 n) (repeat 0 nv)) _] => destruct (foldM f (seq 0 n) (repeat 0 nv)) as [shape| | |] end; try discriminate. cbn [bind].
  set (st0 := (mkSub shape [], o_neutral OP)).
  assert (E1 : foldM (man_factor T OP g FIX m varMap) (seq 0 nf) st0 = foldM (fac_body m varMap) (kept_factors T g tn) st0).
  { rewrite <- loop_g. apply foldM_ext_In. intros k [s c] _. unfold man_factor. rewrite HT. destruct (rd tn k) as [t| | |]; auto. }
  assert (E2 : foldM (man_factor T OP g' FIX (erase m) varMap) (seq 0 nf') st0 = bind (foldM (fac_body m varMap) (kept_factors T g tn) st0) (fun st => foldM (fun st t => fac_body m varMap st (root_factor T OP t)) ts st)).
  { rewrite <- loop_g'. apply foldM_ext_In. intros k [s c] _. unfold man_factor. cbn [erase a_tent]. destruct (rd (repeat false nf') k) as [t| | |]; auto. }
  fold (erase m). rewrite E1, E2. clear E1 E2. destruct (foldM (fac_body m varMap) (kept_factors T g tn) st0) as [[s c]| | |]; try discriminate. cbn [bind].
  assert (E3 : foldM (fun st t => fac_body m varMap st (root_factor T OP t)) ts (s, c) = (s <- foldM (fun s t => var <- rd varMap (t_root t) ;; h <- root_fun T OP g t ;; sub_addFactor T s h [var]) ts s ;; Ret (s, c))).
  { assert (IN : forall t, In t ts -> In t ts) by auto. revert IN. generalize ts at 1 3 4. intros l. revert s. induction l as [|t l IH]; intros s IN; auto. cbn [foldM].
    assert (E : fac_body m varMap (s, c) (root_factor T OP t) = (s <- (var <- rd varMap (t_root t) ;; h <- root_fun T OP g t ;; sub_addFactor T s h [var]) ;; Ret (s, c))).
    { assert (It : In t ts) by (apply IN; left; auto). unfold fac_body. change (factor_facv T g) with (factor_facv T g'). rewrite root_facv by auto. cbn [bind root_factor fst]. pose proof (root_split t (a_v2s m) varMap (a_locked m) (a_mgm m) (a_subs m) It LV) as X.
      change (man_split T (mkMan (a_locked m) (a_fix m) (a_lab m) (repeat false nf') (a_mgm m) (a_subs m) (a_v2s m)) varMap [t_root t]) with (man_split T m varMap [t_root t]) in X. rewrite X.
      destruct (rd varMap (t_root t)) as [j| | |]; auto. cbn [bind length Nat.eqb]. rewrite root_fun_ok by auto. cbn [bind]. auto. }
    rewrite E. destruct (var <- rd varMap (t_root t) ;; h <- root_fun T OP g t ;; sub_addFactor T s h [var]) as [s'| | |]; auto. cbn [bind]. apply IH. intros x Hx. apply IN. right. auto. }
  rewrite E3. destruct (foldM (fun s t => var <- rd varMap (t_root t) ;; h <- root_fun T OP g t ;; sub_addFactor T s h [var]) ts s) as [s'| | |]; try discriminate. cbn [bind].
  destruct (add_const T s' c) as [s2| | |]; try discriminate. cbn [bind]. intros H. injection H as <-. rewrite HT. auto.
Qed.

(** ** The sub-models *)
Definition sub_body (m : man T) (varMap : list nat) (st : list (subgm T) * T) (fc : list nat * (list nat -> T)) : outcome (list (subgm T) * T) :=
  let '(ss, c) := st in
  f <- factor_facv T g fc ;;
  ' (mv, fx, sp) <- man_split T m varMap (fst fc) ;;
  let add h := s <- rd ss sp ;; s <- sub_addFactor T s h mv ;; ss <- wr ss sp s ;; Ret (ss, c) in
  if length mv =? 0 then c <- man_const T OP m (fst fc) f c ;; Ret (ss, c)
  else if length fx =? 0 then add (SView f)
  else v <- vf_new f fx ;; add (SFix v).
Lemma subs_sim : forall v2s k, length v2s = n -> forall ss', sub_models T OP g' FIX (erase m) v2s k = Ret (mkMan true (a_fix m) (a_lab m) (repeat false nf') (a_mgm m) ss' v2s) ->
  tent_sub_models T OP g FIX m ts v2s k = Ret (mkMan true (a_fix m) (a_lab m) tn (a_mgm m) ss' v2s).
Proof.
  intros v2s k LV ss'. unfold sub_models, tent_sub_models. change (v_labels g') with (v_labels g). cbn [erase a_fix a_lab a_tent a_mgm a_subs a_v2s]. set (K := if k =? 0 then 1 else k).
  match goal with |- context [bind (foldM ?f (seq 0 n) (repeat 0 n, repeat 0 K)) _] => destruct (foldM f (seq 0 n) (repeat 0 n, repeat 0 K)) as [[varMap nvs]| | |] end; try discriminate. cbn [bind].
  match goal with |- context [bind (foldM ?f (seq 0 n) (map (fun c => repeat 0 c) nvs)) _] => destruct (foldM f (seq 0 n) (map (fun c => repeat 0 c) nvs)) as [shape| | |] end; try discriminate. cbn [bind].
  set (st0 := (map (fun sh => mkSub sh []) shape, o_neutral OP)).
  set (m1 := mkMan true (a_fix m) (a_lab m) (a_tent m) (a_mgm m) (a_subs m) v2s). set (m2 := mkMan true (a_fix m) (a_lab m) (repeat false nf') (a_mgm m) (a_subs m) v2s).
  assert (E1 : foldM (man_subfactor T OP g FIX m1 varMap) (seq 0 nf) st0 = foldM (sub_body m1 varMap) (kept_factors T g tn) st0).
  { rewrite <- loop_g. apply foldM_ext_In. intros q [s c] _. unfold man_subfactor. cbn [m1 a_tent]. rewrite HT. destruct (rd tn q) as [t| | |]; auto. }
  assert (E2 : foldM (man_subfactor T OP g' FIX m2 varMap) (seq 0 nf') st0 = bind (foldM (sub_body m1 varMap) (kept_factors T g tn) st0) (fun st => foldM (fun st t => sub_body m1 varMap st (root_factor T OP t)) ts st)).
  { rewrite <- loop_g'. apply foldM_ext_In. intros q [s c] _. unfold man_subfactor. cbn [m2 a_tent]. destruct (rd (repeat false nf') q) as [t| | |]; auto. }
  rewrite E1, E2. clear E1 E2. destruct (foldM (sub_body m1 varMap) (kept_factors T g tn) st0) as [[s c]| | |]; try discriminate. cbn [bind].
  set (rs := fun ss t => var <- rd varMap (t_root t) ;; sp <- rd v2s (t_root t) ;; h <- root_fun T OP g t ;; s <- rd ss sp ;; s <- sub_addFactor T s h [var] ;; wr ss sp s).
  assert (E3 : foldM (fun st t => sub_body m1 varMap st (root_factor T OP t)) ts (s, c) = (s <- foldM rs ts s ;; Ret (s, c))).
  { assert (IN : forall t, In t ts -> In t ts) by auto. revert IN. generalize ts at 1 3 4. intros l. revert s. induction l as [|t l IH]; intros s IN; auto. cbn [foldM].
    assert (E : sub_body m1 varMap (s, c) (root_factor T OP t) = (s <- rs s t ;; Ret (s, c))).
    { assert (It : In t ts) by (apply IN; left; auto). unfold sub_body. change (factor_facv T g) with (factor_facv T g'). rewrite root_facv by auto. cbn [bind root_factor fst]. pose proof (root_split t v2s varMap true (a_mgm m) (a_subs m) It LV) as X.
      change (man_split T (mkMan true (a_fix m) (a_lab m) (repeat false nf') (a_mgm m) (a_subs m) v2s) varMap [t_root t]) with (man_split T m1 varMap [t_root t]) in X. rewrite X. unfold rs.
      destruct (rd varMap (t_root t)) as [j| | |]; auto. destruct (HR t It) as [RL _]. cbn [bind length Nat.eqb]. rewrite (rd_nth _ v2s _ 0) by lia. cbn [bind]. rewrite root_fun_ok by auto. cbn [bind].
      destruct (rd s (nth (t_root t) v2s 0)) as [q| | |]; auto. cbn [bind]. match goal with |- context [sub_addFactor T q ?h [j]] => destruct (sub_addFactor T q h [j]) as [q'| | |]; auto end. }
    rewrite E. destruct (rs s t) as [s'| | |]; auto. cbn [bind]. apply IH. intros x Hx. apply IN. right. auto. }
  rewrite E3. destruct (foldM rs ts s) as [s'| | |]; try discriminate. cbn [bind].
  destruct (rd s' 0) as [q| | |]; try discriminate. cbn [bind]. destruct (add_const T q c) as [q'| | |]; try discriminate. cbn [bind]. destruct (wr s' 0 q') as [s2| | |]; try discriminate. cbn [bind]. intros H. injection H as <-. rewrite HT. auto.
Qed.

(** ** The connected components *)
Variable fx : fixes.
Hypothesis LFX : length fx = n.
Hypothesis W : wf_gmv g.
Hypothesis TN : forall k u v, nth k tn false = true -> In u (TentaclePeel.vars T g k) -> In v (TentaclePeel.vars T g k) -> is_free fx u = true -> is_free fx v = true -> u = v.
Lemma joined_same : forall u v, is_free fx u = true -> (joined g fx u v <-> joined g' fx u v).
Proof.
  intros u v FU. split; intros H; revert FU; induction H as [|a b c [(fc & I & A & B) [L F]] H IH]; intros FU; try (constructor; fail); specialize (IH F).
  - destruct (In_nth_error _ _ I) as [k E]. assert (VK : TentaclePeel.vars T g k = fst fc) by (unfold TentaclePeel.vars; rewrite E; auto).
    destruct (nth k tn false) eqn:K.
    + rewrite (TN k a b); auto; rewrite VK; auto.
    + econstructor; [|exact IH]. split; auto. exists fc. split; auto. cbn [reduced v_factors]. apply in_or_app. left. apply in_map_iff. exists (false, fc). split; auto. apply filter_In. split; auto.
      apply (nth_error_In _ k). apply nth_error_combine; auto. rewrite <- K. apply nth_error_nth'. rewrite LN. apply nth_error_Some. congruence.
  - cbn [reduced v_factors] in I. apply in_app_or in I. destruct I as [I|I].
    + econstructor; [|exact IH]. split; auto. exists fc. split; auto. eapply kept_In; eauto.
    + apply in_map_iff in I. destruct I as (t & <- & It). cbn [root_factor fst] in A, B. destruct A as [<-|[]]. destruct B as [<-|[]]. auto.
Qed.
End S.

(** ** Labels of the variables of tentacles *)
Section L.
Variable T : Type.
Variable fin : T -> Prop.
Variable g : gmv T.
Notation n := (length (v_labels g)).
Notation lab v := (nth v (v_labels g) 0).
Lemma spread_loop : forall C cs (l : nat) c ol, nth_error cs l = Some c -> NoDup C -> length ol = n -> length c = length C -> (forall v, In v C -> v < n) ->
  foldM (fun ol k => v <- rd C k ;; c <- rd cs l ;; a <- rd c k ;; wr ol v a) (seq 0 (length C)) ol = Ret (spread T g C ol c).
Proof.
  intros C cs l c ol EC ND LO LC HL.
  assert (G : forall m, m <= length C -> exists ol', foldM (fun ol k => v <- rd C k ;; c <- rd cs l ;; a <- rd c k ;; wr ol v a) (seq 0 m) ol = Ret ol' /\ length ol' = n /\ (forall v, nth v ol' 0 = if mem v (firstn m C) then nth (pos C v) c 0 else nth v ol 0)).
  { induction m as [|m IH]; intros Hm. { exists ol. cbn. auto. }
    destruct IH as (b & E & A & D); [lia|]. destruct (nth_error_lt _ C m) as (v & EV); [lia|]. destruct (nth_error_lt _ c m) as (a & EA); [lia|].
    assert (Hv : v < n) by (apply HL; eapply nth_error_In; eauto).
    rewrite seq_S, foldM_app. cbn [Nat.add]. rewrite E. cbn [bind foldM]. rewrite (rd_Ret _ _ _ _ EV). cbn [bind]. rewrite (rd_Ret _ _ _ _ EC). cbn [bind]. rewrite (rd_Ret _ _ _ _ EA). cbn [bind]. rewrite wr_Ret by lia. cbn [bind].
    assert (FN : firstn (S m) C = firstn m C ++ [v]). { clear - EV. revert m EV. induction C as [|c C IH]; intros [|m] EV; cbn in *; try discriminate; [injection EV as ->; auto|]. f_equal. apply IH. auto. }
    eexists. split; [reflexivity|]. rewrite !length_upd. split; auto. intros u. rewrite FN, mem_snoc.
    destruct (Nat.eqb_spec u v) as [->|N]; [|rewrite nth_upd_neq, orb_false_r by auto; auto]. rewrite nth_upd_eq by lia. rewrite orb_true_r, (nth_pos C m v ND EV). symmetry. apply nth_error_nth. auto. }
  destruct (G (length C)) as (ol' & -> & L & H); auto. f_equal. rewrite firstn_all in H. apply (nth_ext _ _ 0 0); [rewrite spread_len; auto|]. intros v Hv. rewrite nth_spread by lia. apply H.
Qed.
Lemma tent_labels_ok : forall fx ts z, Forall (tent_fits T fin g fx) ts -> labeling g z -> tent_labels T ts z = Ret (tlz T g ts z).
Proof.
  intros fx ts. induction ts as [|t ts IH]; intros z H HZ; auto. inversion H as [|? ? H1 H2]; subst. unfold tent_labels. cbn [foldM tlz fold_left]. destruct H1 as [OK FR RI ND LT LC CA]. destruct OK as (RL & _ & _).
  assert (LZ : length z = n) by (apply (Forall2_len _ _ _ _ _ HZ)).
  assert (LR : nth (t_root t) z 0 < lab (t_root t)) by (apply Forall2_nth_lt; auto).
  rewrite (rd_nth _ z _ 0) by lia. cbn [bind]. destruct (CA _ LR) as (C1 & C2 & C3). rewrite (spread_loop _ _ _ (cand T t (nth (t_root t) z 0))); auto.
  - cbn [bind]. apply IH; auto. apply Forall2_nth_intro; [rewrite spread_len; auto|]. intros v Hv. rewrite ?spread_len in Hv. rewrite nth_spread by auto. destruct (mem v (t_vars t)) eqn:M; [apply mem_In in M; auto|apply Forall2_nth_lt; auto].
  - unfold cand. apply nth_error_nth'. lia.
Qed.
End L.
