(** Proofs about A* search: the constructor and calls of infer. *)
From Verif Require Import Base Values GmView ShapeSpec ShapeProofs GmViewSpec GmViewProofs AStarModel AStarSpec AStarSearch AStarFast.
From Coq Require Import Permutation Sorted.
Open Scope nat_scope.

Section Totals.
Variable T : Type.
Variable ok : T -> Prop.
Variable OP : oper T.
Variable ACC : accum T.
Hypothesis SL : search_laws ok OP ACC.
Variable zero : T.
Variable g : gmv T.
Hypothesis OK : fin_gmv ok g.
Notation op := (o_op OP).
Notation one := (o_neutral OP).
Notation factor := (list nat * (list nat -> T))%type.
Definition fv (y : list nat) (fc : factor) : T := snd fc (at_vars y (fst fc)).
Lemma fold_bigo : forall l y acc, (forall fc, In fc l -> ok (fv y fc)) -> ok acc ->
  fold_left (fun acc (fc : factor) => op (snd fc (at_vars y (fst fc))) acc) l acc = op (bigo T OP l (fv y)) acc.
Proof.
  induction l as [|fc l IH]; intros y acc H K.
  - cbn. rewrite (sl_unit _ _ _ SL); auto.
  - cbn [fold_left bigo fold_right]. fold (bigo T OP l (fv y)). assert (K1 : ok (fv y fc)) by (apply H; left; auto).
    assert (K2 : ok (bigo T OP l (fv y))) by (apply (bigo_ok T ok OP ACC SL); intros; apply H; right; auto).
    rewrite IH; [|intros; apply H; right; auto|apply (sl_op _ _ _ SL); auto].
    fold (fv y fc). rewrite <- (sl_assoc _ _ _ SL) by auto. apply (op_swap T ok OP ACC SL); auto.
Qed.
Lemma fv_ok : forall y fc, labeling g y -> In fc (v_factors g) -> ok (fv y fc).
Proof. intros y fc HL H. unfold fin_gmv in OK. rewrite Forall_forall in OK. apply OK; auto. Qed.
Lemma total_bigo : forall y, labeling g y -> total OP g y = bigo T OP (v_factors g) (fv y).
Proof.
  intros y HL. unfold total. rewrite fold_bigo; [|intros; apply fv_ok; auto|apply (sl_neutral _ _ _ SL)]. apply (unit_r T ok OP ACC SL).
  apply (bigo_ok T ok OP ACC SL). intros; apply fv_ok; auto.
Qed.
Definition nonconst (fc : factor) : bool := negb (length (fst fc) =? 0).
Lemma bare_bigo : forall y, labeling g y -> total OP (without_constants g) y = bigo T OP (filter nonconst (v_factors g)) (fv y).
Proof.
  intros y HL. unfold total, without_constants. cbn [v_factors]. fold nonconst.
  assert (H : forall fc, In fc (filter nonconst (v_factors g)) -> ok (fv y fc)) by (intros fc Hf; apply filter_In in Hf as [Hf _]; apply fv_ok; auto).
  rewrite fold_bigo; [|auto|apply (sl_neutral _ _ _ SL)]. apply (unit_r T ok OP ACC SL). apply (bigo_ok T ok OP ACC SL). auto.
Qed.
Lemma bare_ok : forall y, labeling g y -> ok (total OP (without_constants g) y).
Proof. intros y HL. rewrite bare_bigo by auto. apply (bigo_ok T ok OP ACC SL). intros fc Hf; apply filter_In in Hf as [Hf _]; apply fv_ok; auto. Qed.
Lemma total_ok : forall y, labeling g y -> ok (total OP g y).
Proof. intros y HL. rewrite total_bigo by auto. apply (bigo_ok T ok OP ACC SL). intros fc Hf; apply fv_ok; auto. Qed.
Lemma bare_seq : forall y, labeling g y -> bigo T OP (seq 0 (length (v_factors g))) (fval' T OP zero g y) = total OP (without_constants g) y.
Proof.
  intros y HL. rewrite bare_bigo by auto. unfold fval', fval.
  assert (X : forall l : list factor, (forall fc, In fc l -> ok (fv y fc)) -> bigo T OP (seq 0 (length l)) (fun i => if length (fst (nth i l ([], fun _ => zero))) =? 0 then one else snd (nth i l ([], fun _ => zero)) (at_vars y (fst (nth i l ([], fun _ => zero))))) = bigo T OP (filter nonconst l) (fv y)).
  { induction l as [|fc l IH]; intros H; auto. cbn [length]. rewrite <- cons_seq. cbn [bigo fold_right]. rewrite <- seq_shift.
    assert (E : forall (l : list nat) (f : nat -> T), fold_right (fun k acc => op (f k) acc) one (map S l) = fold_right (fun k acc => op (f (S k)) acc) one l) by (clear; induction l; intros; cbn; auto; rewrite IHl; auto).
    rewrite E. cbn [nth]. specialize (IH (fun c Hc => H c (or_intror Hc))). unfold bigo in IH at 1. rewrite IH. cbn [filter]. unfold nonconst at 2.
    destruct (length (fst fc) =? 0); cbn [negb]; auto. rewrite (sl_unit _ _ _ SL); auto. apply (bigo_ok T ok OP ACC SL). intros c Hc. apply filter_In in Hc as [Hc _]. apply H. right; auto. }
  apply X. intros fc Hf. apply fv_ok; auto.
Qed.
Lemma bare_le_total : forall x y, labeling g x -> labeling g y -> a_bop ACC (total OP (without_constants g) y) (total OP (without_constants g) x) = false ->
  a_bop ACC (total OP g y) (total OP g x) = false.
Proof.
  assert (X : forall x, labeling g x -> total OP g x = op (bigo T OP (filter (fun fc => negb (nonconst fc)) (v_factors g)) (fun fc => snd fc [])) (total OP (without_constants g) x)).
  { intros x HL. rewrite total_bigo, bare_bigo by auto.
    assert (PR : Permutation (v_factors g) (filter (fun fc => negb (nonconst fc)) (v_factors g) ++ filter nonconst (v_factors g))).
    { clear. induction (v_factors g) as [|a l IH]; cbn; auto. destruct (nonconst a); cbn; auto. apply Permutation_cons_app. auto. }
    rewrite (bigo_perm T ok OP ACC SL _ _ _ (fv x) PR) by (intros; apply fv_ok; auto).
    rewrite (bigo_app T ok OP ACC SL) by (intros fc Hf; apply fv_ok; auto; eapply Permutation_in; [apply Permutation_sym|]; eauto).
    f_equal. apply bigo_ext. intros fc Hf. apply filter_In in Hf as [_ Hf]. unfold nonconst in Hf. rewrite negb_involutive in Hf. apply Nat.eqb_eq in Hf. unfold fv. destruct (fst fc); [auto|discriminate]. }
  intros x y Hx Hy H. rewrite (X x), (X y) by auto. apply (sl_mono _ _ _ SL); auto using bare_ok.
  apply (bigo_ok T ok OP ACC SL). intros fc Hf. apply filter_In in Hf as [Hf Hc]. pose proof (fv_ok x fc Hx Hf) as K. unfold fv in K. unfold nonconst in Hc. rewrite negb_involutive in Hc. apply Nat.eqb_eq in Hc. destruct (fst fc); [auto|discriminate].
Qed.
End Totals.

(** ** The constructor *)
Section New.
Variable T : Type.
Variable ACC : accum T.
Variable zero : T.
Variable g : gmv T.
Lemma default_tree : forall order, (forall a b F, In ([a; b], F) (v_factors g) -> order <> []) ->
  defaultTree T g order = Ret (filter (fun i => match nth_error (v_factors g) i with Some ([a; b], _) => (a =? last order 0) || (b =? last order 0) | _ => false end) (seq 0 (length (v_factors g)))).
Proof.
  intros order HO. unfold defaultTree.
  assert (X : forall m, m <= length (v_factors g) -> foldM (fun ids i =>
    ' (vis, _) <- rd (v_factors g) i ;;
    match vis with
    | [a; b] => back <- rd order (length order - 1) ;; Ret (if (a =? back) || (b =? back) then ids ++ [i] else ids)
    | _ => Ret ids
    end) (seq 0 m) [] = Ret (filter (fun i => match nth_error (v_factors g) i with Some ([a; b], _) => (a =? last order 0) || (b =? last order 0) | _ => false end) (seq 0 m))).
  { induction m as [|m IH]; intros Hm; auto. rewrite seq_S, foldM_app, IH by lia. cbn [bind foldM Nat.add]. rewrite filter_app. cbn [filter].
    destruct (nth_error_lt _ (v_factors g) m ltac:(lia)) as ([vis F] & E). rewrite (rd_Ret _ _ _ _ E), E. cbn [bind].
    destruct vis as [|a [|b [|c vis]]]; try (rewrite app_nil_r; reflexivity).
    assert (Hn : order <> []) by (eapply HO, nth_error_In; eauto).
    assert (RB : rd order (length order - 1) = Ret (last order 0)).
    { destruct (exists_last Hn) as (l & z & ->). rewrite last_last, app_length. cbn [length]. replace (length l + 1 - 1) with (length l) by lia. apply rd_Ret. rewrite nth_error_app2, Nat.sub_diag by lia. auto. }
    rewrite RB. cbn [bind]. destruct ((a =? last order 0) || (b =? last order 0)); auto. rewrite app_nil_r. auto. }
  apply X. auto.
Qed.
Lemma mark_ok : forall ids l, Forall (fun i => i < length l) ids -> exists l', foldM (fun l i => wr l i true) ids l = Ret l' /\ length l' = length l /\
  forall i, nth i l' false = true -> nth i l false = true \/ In i ids.
Proof.
  induction ids as [|a ids IH]; intros l H.
  - exists l. cbn. auto.
  - inversion H; subst. cbn [foldM]. rewrite wr_Ret by auto. cbn [bind]. destruct (IH (upd l a true)) as (l' & E & L1 & L2).
    + eapply Forall_impl; [|eassumption]. intros i Hi. rewrite length_upd. auto.
    + exists l'. rewrite E. split; auto. split; [rewrite L1, length_upd; auto|]. intros i Hi. destruct (L2 i Hi) as [X|X]; [|cbn; auto].
      destruct (Nat.eq_dec a i) as [->|Ne]; [cbn; auto|]. rewrite nth_upd_neq in X by auto. auto.
Qed.
Lemma pair_ins_perm : forall x l, Permutation (pair_ins x l) (x :: l).
Proof. induction l as [|y l IH]; cbn; auto. destruct (pair_leb x y); auto. eapply perm_trans; [apply perm_skip, IH|]. apply perm_swap. Qed.
Lemma pair_sort_perm : forall l, Permutation (pair_sort l) l.
Proof. unfold pair_sort. induction l as [|x l IH]; cbn [fold_right]; auto. eapply perm_trans; [apply pair_ins_perm|]. auto. Qed.
Lemma defaultOrder_perm : Permutation (defaultOrder T g) (seq 0 (length (v_labels g))).
Proof.
  unfold defaultOrder. eapply perm_trans; [apply Permutation_map; eapply perm_trans; [apply Permutation_sym, Permutation_rev|apply pair_sort_perm]|].
  rewrite map_map. cbn [snd]. rewrite map_id. auto.
Qed.
Lemma optimize_ret : wf_gmv g -> exists opt, mapM (optimize T ACC g) (v_factors g) = Ret opt.
Proof.
  intros [W _]. induction W as [|fc l [_ H] W IH]; cbn [mapM]; [eauto|]. destruct IH as (o & ->).
  unfold optimize. destruct (fst fc) as [|v [|w vis]]; cbn [bind]; eauto. inversion H; subst.
  rewrite (rd_nth _ (v_labels g) v 0) by auto. cbn [bind]. rewrite (mapM_all _ _ (rd (v_labels g)) (fun v => nth v (v_labels g) 0)).
  - cbn [bind]. eauto.
  - intros u Hu. apply rd_nth. rewrite Forall_forall in H3. auto.
Qed.
(** The factors with the last variable have no cycles. *)
Lemma star_forest : forall c ids, wf_gmv g -> simple_pairs g -> (forall i a b F, In i ids -> nth_error (v_factors g) i = Some ([a; b], F) -> a = c \/ b = c) -> forest g ids.
Proof.
  intros c ids [W _] SP HC S HN ND HS. rewrite Forall_forall in HS.
  set (vars := fun i => match nth_error (v_factors g) i with Some (vis, _) => vis | None => [] end).
  set (oth := fun i => match vars i with [a; b] => if a =? c then b else a | _ => c end).
  assert (PV : forall i, In i S -> exists a b F, nth_error (v_factors g) i = Some ([a; b], F) /\ a < b /\ (a = c \/ b = c)).
  { intros i Hi. destruct (HS i Hi) as (H1 & a & b & F & E). exists a, b, F. split; auto. split; [|eapply HC; eauto].
    rewrite Forall_forall in W. pose proof (W _ (nth_error_In _ _ E)) as [W1 _]. cbn in W1. inversion W1 as [|? ? _ Q]. inversion Q. auto. }
  assert (IN : NoDup (map oth S)).
  { apply NoDup_map_in; auto. intros i j Hi Hj E. destruct (PV i Hi) as (a & b & F & Ei & L1 & C1). destruct (PV j Hj) as (a' & b' & G & Ej & L2 & C2).
    unfold oth, vars in E. rewrite Ei, Ej in E. assert (X : [a; b] = [a'; b']).
    { destruct (Nat.eqb_spec a c), (Nat.eqb_spec a' c); destruct C1, C2; subst; try lia; auto. }
    injection X as -> ->. eapply SP; eauto. }
  assert (NC : ~ In c (map oth S)).
  { rewrite in_map_iff. intros (i & E & Hi). destruct (PV i Hi) as (a & b & F & Ei & L1 & C1). unfold oth, vars in E. rewrite Ei in E. destruct (Nat.eqb_spec a c); lia. }
  assert (IC : incl (c :: map oth S) (touched g S)).
  { intros v Hv. unfold touched. apply nodup_In. apply in_concat. fold vars.
    assert (Y : forall i, In i S -> In (vars i) (map vars S)) by (intros i Hi; apply in_map; auto).
    destruct Hv as [<-|Hv].
    - destruct S as [|i S']; [congruence|]. destruct (PV i (or_introl eq_refl)) as (a & b & F & Ei & L1 & C1). exists (vars i). split; [apply Y; left; auto|]. unfold vars. rewrite Ei. destruct C1; subst; cbn; auto.
    - apply in_map_iff in Hv as (i & <- & Hi). destruct (PV i Hi) as (a & b & F & Ei & L1 & C1). exists (vars i). split; [apply Y; auto|]. unfold oth, vars. rewrite Ei. destruct (a =? c); cbn; auto. }
  pose proof (NoDup_incl_length (NoDup_cons _ NC IN) IC) as X. cbn in X. rewrite map_length in X. lia.
Qed.
End New.

(** ** Calls of infer *)
Section Calls.
Variable T : Type.
Variable ok : T -> Prop.
Variable OP : oper T.
Variable ACC : accum T.
Variable zero : T.
Variable g : gmv T.
Variable solve : gmv T -> nat -> nat -> outcome (list nat).
Variable pick : nat -> list (anode T) -> nat.
Variable stop : nat -> bool.
Variable P : aparam T.
Variable tr : list bool.
Variable opt : list (option (nat * list T)).
Variable R : list nat -> T.
Variable F0 : nat.
Let n := length (v_labels g).
Hypothesis WF : wf_gmv g.
Hypothesis OR : Permutation (p_nodeOrder P) (seq 0 n).
Hypothesis SL : search_laws ok OP ACC.
Hypothesis PK : good_pick ok ACC pick.
Hypothesis ZK : ok zero.
Hypothesis N0 : 0 < n.
Hypothesis HS : 100 * size_of (v_labels g) <= 99 * p_maxHeapSize P.
Hypothesis RK : forall y, labeling g y -> ok (R y).
Hypothesis HE : forall fuel s p, F0 <= fuel -> static T P tr opt s -> valid T g P p -> length p < n ->
  exists b, heuristic_of T OP ACC zero g solve fuel s p = Ret b /\ sound_bound T ok ACC g P R p b.
Hypothesis RT : forall x y, labeling g x -> labeling g y -> a_bop ACC (R y) (R x) = false -> a_bop ACC (total OP g y) (total OP g x) = false.
Let PO : positive (v_labels g) := proj2 WF.
Notation infer := (astar_infer T OP ACC zero g solve pick stop).
Definition Res (s : astar T) (F : list (list nat)) : Prop :=
  Inv T ok ACC zero g P tr opt R s F /\ BI T ACC g R s F /\ sorted T ACC g R F.
Definition enough : nat := F0 + S (size_of (v_labels g) * tsize (map (fun v => nth v (v_labels g) 0) (p_nodeOrder P))).

Lemma tsize_skip : forall l k, Forall (fun a => 0 < a) l -> tsize (skipn k l) <= tsize l.
Proof. induction l as [|a l IH]; intros k H; destruct k; cbn [skipn]; auto. inversion H; subst. specialize (IH k H3). cbn [tsize]. nia. Qed.
Lemma measure_small : forall s F, Inv T ok ACC zero g P tr opt R s F -> F0 + S (measure T g P (as_array s)) <= enough.
Proof.
  intros s F I. pose proof (inv_small T ok ACC zero g PO P tr opt OR R N0 HS s F I) as X. unfold enough.
  set (W := tsize (map (fun v => nth v (v_labels g) 0) (p_nodeOrder P))).
  assert (Y : forall l, measure T g P l <= length l * W).
  { induction l as [|a l IH]; [cbn; lia|]. rewrite measure_cons. cbn [length]. assert (Z : weight T g P (an_conf a) <= W); [|lia].
    unfold weight, W. apply tsize_skip. apply Forall_forall. intros w Hw. apply in_map_iff in Hw as (v & <- & Hv).
    apply (Permutation_in _ OR) in Hv. apply in_seq in Hv. pose proof PO as Q. unfold positive in Q. rewrite Forall_forall in Q. apply Q. apply nth_In. unfold n in Hv. lia. }
  specialize (Y (as_array s)). nia.
Qed.

Lemma infer_ok : forall fuel s F, enough <= fuel -> Res s F ->
  exists s' t, infer fuel s = Ret (s', t) /\ search_result OP ACC g R P stop F s' t /\
    ((forall c, stop c = false) -> (forall x, labeling g x -> a_bop ACC (p_objectiveBound P) (R x) = false) -> Res s' (F ++ as_optConf s')).
Proof.
  intros fuel s F HF (I & B & SO). pose proof (measure_small s F I) as M.
  destruct (search_ok T ok OP ACC zero g solve pick stop PO P tr opt OR R SL PK ZK N0 HS RK F0 HE fuel (with_opt T s []) F 0) as (s' & t & E & S1 & S2 & S3 & S4 & S5 & S6 & S7).
  - change (as_array (with_opt T s [])) with (as_array s). lia.
  - cbn. rewrite app_nil_r. exact I.
  - cbn. rewrite app_nil_r. exact B.
  - cbn. rewrite app_nil_r. auto.
  - cbn. lia.
  - exists s', t. split; [exact E|].
    assert (LB : forall x, In x (as_optConf s') -> labeling g x) by (intros x Hx; rewrite Forall_forall in S3; apply S3, in_or_app; auto).
    split; [constructor|].
    + split; [auto|]. split; auto. intros k x y Hk Hy Hn. apply RT; auto. * rewrite Forall_forall in S3. eapply S3, nth_error_In; eauto. * eapply S4; eauto.
    + auto.
    + intros NS. destruct (S7 NS) as [[(-> & D1 & D2)|[(-> & D1 & D2 & D3)|(-> & D1)]] _].
      * left. destruct D2 as (_ & D2 & _). rewrite D1 in D2. apply Permutation_length in D2. rewrite L_len in D2. cbn in D2. rewrite app_length in D2.
        split; [lia|]. split; [discriminate|lia].
      * left. assert (X : cover T g P (as_array s') <> []).
        { pose proof (inv_valid T ok ACC zero g P tr opt R N0 HS s' _ D3) as V. destruct (as_array s') as [|a l]; [congruence|]. unfold cover. cbn [map concat]. inversion V; subst.
          pose proof (compl_some T g PO P OR (an_conf a) H1) as Y. destruct (compl T g P (an_conf a)); [congruence|discriminate]. }
        destruct D3 as (_ & D3 & _). apply Permutation_length in D3. rewrite L_len, !app_length in D3.
        destruct (cover T g P (as_array s')); [congruence|]. cbn in D3. split; [lia|]. split; auto. lia.
      * right. auto.
    + intros y Hy Hn. apply S5; auto.
    + intros NS xs x Ex. destruct (S7 NS) as [_ Q]. destruct (Q (or_introl eq_refl)) as [Q1|(ys & z & Q1 & Q2)].
      * rewrite Q1 in Ex. destruct xs; discriminate.
      * rewrite Q1 in Ex. apply app_inj_tail in Ex as [_ ->]. auto.
    + intros x xs Ex. unfold astar_value. rewrite Ex. apply v_evaluate_total; auto. apply labeling_length. apply LB. rewrite Ex. left; auto.
    + intros k x c Ek. unfold astar_arg. assert (Hk : k < length (as_optConf s')) by (apply nth_error_Some; congruence).
      destruct (Nat.ltb_spec (length (as_optConf s')) (S k)); [lia|]. rewrite (rd_Ret _ _ _ _ Ek). auto.
    + intros NS NB. split; [|split; auto]. destruct (S7 NS) as [[(-> & D1 & D2)|[(-> & D1 & D2 & D3)|(-> & xs & x & D1 & D2)]] _]; auto.
      rewrite NB in D2; [discriminate|]. apply LB. rewrite D1. apply in_or_app. right; left; auto.
Qed.
Lemma infers_ok : (forall c, stop c = false) -> (forall x, labeling g x -> a_bop ACC (p_objectiveBound P) (R x) = false) ->
  forall fuel, enough <= fuel -> forall k s F, Res s F ->
  exists xs, infers (infer fuel) k s = Ret xs /\ best_first OP ACC g (F ++ xs) /\ length xs = Nat.min (k * p_numberOfOpt P) (size_of (v_labels g) - length F).
Proof.
  intros NS NB fuel HF. induction k as [|k IH]; intros s F HR.
  - exists []. split; [reflexivity|]. cbn. split; [|lia]. rewrite app_nil_r. destruct HR as ((_ & I & _) & _ & SO).
    pose proof (Permutation_NoDup (Permutation_sym I) (L_nodup T g PO)) as X. split; [eapply NoDup_app_right; eauto|].
    assert (Y : forall x, In x F -> labeling g x) by (intros x Hx; apply (L_in T g PO); apply (Permutation_in _ I), in_or_app; auto).
    split; [apply Forall_forall; auto|]. intros i x y Hi Hy Hn. apply RT; auto; [eapply Y, nth_error_In; eauto|]. eapply SO; eauto.
  - cbn [infers]. destruct (infer_ok fuel s F HF HR) as (s' & t & E & S1 & S2). rewrite E. cbn [bind].
    specialize (S2 NS NB). destruct (IH s' (F ++ as_optConf s') S2) as (xs & E2 & B & LX). rewrite E2. cbn [bind]. eexists. split; [reflexivity|].
    rewrite app_assoc. split; auto. rewrite !app_length in *. destruct (sr_all _ _ _ _ _ _ _ _ _ S1 NS) as [[D _]|(_ & ys & x & D1 & D2)].
    + rewrite LX, D. cbn. lia.
    + exfalso. rewrite NB in D2; [discriminate|]. destruct (sr_best _ _ _ _ _ _ _ _ _ S1) as (_ & Q & _). rewrite Forall_forall in Q. apply Q. rewrite D1. apply in_or_app. right. apply in_or_app. right; left; auto.
Qed.
End Calls.

(** ** The fast heuristic *)
Section FastSearch.
Variable T : Type.
Variable ok : T -> Prop.
Variable OP : oper T.
Variable ACC : accum T.
Variable zero : T.
Variable g : gmv T.
Variable solve : gmv T -> nat -> nat -> outcome (list nat).
Variable pick : nat -> list (anode T) -> nat.
Variable stop : nat -> bool.
Let n := length (v_labels g).

Lemma new_ok : forall para,
  wf_gmv g -> 0 < n -> p_nodeOrder para = [] \/ Permutation (p_nodeOrder para) (seq 0 n) ->
  (p_treeFactorIds para = [] /\ simple_pairs g) \/ (p_treeFactorIds para <> [] /\ Forall (fun i => i < length (v_factors g)) (p_treeFactorIds para) /\ forest g (p_treeFactorIds para)) ->
  (p_heuristic para = FASTHEURISTIC -> Forall (fun fc => length (fst fc) <= 2) (v_factors g)) ->
  exists P tr opt,
    astar_new T ACC zero g para = Ret (mkAStar P [mkANode [] zero] tr opt [] (a_ineutral ACC) 0) /\
    p_maxHeapSize P = p_maxHeapSize para /\ p_numberOfOpt P = p_numberOfOpt para /\ p_objectiveBound P = p_objectiveBound para /\
    p_heuristic P = match p_heuristic para with DEFAULTHEURISTIC => if v_factorOrder T g <=? 2 then FASTHEURISTIC else STANDARDHEURISTIC | h => h end /\
    p_nodeOrder P = (if length (p_nodeOrder para) =? 0 then defaultOrder T g else p_nodeOrder para) /\
    Permutation (p_nodeOrder P) (seq 0 n) /\
    length tr = length (v_factors g) /\ forest g (filter (fun i => nth i tr false) (seq 0 (length (v_factors g)))) /\
    mapM (optimize T ACC g) (v_factors g) = Ret opt.
Proof.
  intros para WF N0 HO HT HF. unfold astar_new.
  set (order := if length (p_nodeOrder para) =? 0 then defaultOrder T g else p_nodeOrder para).
  set (h := match p_heuristic para with DEFAULTHEURISTIC => if v_factorOrder T g <=? 2 then FASTHEURISTIC else STANDARDHEURISTIC | h => h end).
  assert (OR : Permutation order (seq 0 n)).
  { unfold order. destruct HO as [E|E]; [rewrite E; apply defaultOrder_perm|]. pose proof (Permutation_length E) as X. rewrite seq_length in X.
    destruct (Nat.eqb_spec (length (p_nodeOrder para)) 0); [lia|auto]. }
  pose proof (Permutation_length OR) as OL. rewrite seq_length in OL. fold n. rewrite OL, Nat.eqb_refl. cbn [negb].
  assert (TX : exists tree, (if length (p_treeFactorIds para) =? 0 then defaultTree T g order else Ret (p_treeFactorIds para)) = Ret tree /\ Forall (fun i => i < length (v_factors g)) tree /\ forest g tree).
  { destruct HT as [[E SP]|(E & T1 & T2)].
    - rewrite E. cbn [length Nat.eqb]. rewrite default_tree by (intros; destruct order; [cbn in OL; lia|discriminate]). eexists. split; [reflexivity|]. split.
      + apply Forall_forall. intros i Hi. apply filter_In in Hi as [Hi _]. apply in_seq in Hi. lia.
      + apply star_forest with (c := last order 0); auto. intros i a b F Hi E2. apply filter_In in Hi as [_ Hi]. rewrite E2 in Hi. apply orb_true_iff in Hi as [Hi|Hi]; apply Nat.eqb_eq in Hi; auto.
    - destruct (Nat.eqb_spec (length (p_treeFactorIds para)) 0) as [X|X]; [destruct (p_treeFactorIds para); [congruence|discriminate]|]. eauto. }
  destruct TX as (tree & -> & T1 & T2). cbn [bind]. destruct (optimize_ret T ACC g WF) as (opt & Eo). rewrite Eo. cbn [bind].
  rewrite (mapM_all _ _ _ (fun i => nth i (v_factors g) ([], fun _ => zero))) by (intros i Hi; apply rd_nth; rewrite Forall_forall in T1; auto). cbn [bind].
  set (vs := map _ tree).
  assert (EX : (match h with FASTHEURISTIC => existsb (fun fc : list nat * (list nat -> T) => 2 <? length (fst fc)) vs | _ => false end) = false).
  { destruct h eqn:Eh; auto. assert (PW : Forall (fun fc => length (fst fc) <= 2) (v_factors g)).
    { unfold h in Eh. destruct (p_heuristic para); [|auto|discriminate]. destruct (Nat.leb_spec (v_factorOrder T g) 2) as [X|X]; [|discriminate].
      apply Forall_forall. intros fc Hfc. unfold v_factorOrder in X.
      assert (Y : forall (l : list (list nat * (list nat -> T))) m, m <= fold_left (fun m fc => Nat.max m (length (fst fc))) l m /\ forall fc, In fc l -> length (fst fc) <= fold_left (fun m fc => Nat.max m (length (fst fc))) l m).
      { clear. induction l as [|c l IH]; intros m; cbn [fold_left]; [split; [auto|intros fc []]|]. destruct (IH (Nat.max m (length (fst c)))) as [I1 I2]. split; [lia|]. intros fc [<-|H]; [lia|auto]. }
      destruct (Y (v_factors g) 0) as [_ Y2]. specialize (Y2 fc Hfc). lia. }
    apply not_true_is_false. intros X. apply existsb_exists in X as (fc & Hfc & X). apply Nat.ltb_lt in X. unfold vs in Hfc. apply in_map_iff in Hfc as (i & <- & Hi).
    rewrite Forall_forall in PW, T1. specialize (PW (nth i (v_factors g) ([], fun _ => zero)) (nth_In _ _ (T1 i Hi))). lia. }
  rewrite EX. destruct (mark_ok tree (repeat false (length (v_factors g)))) as (tr & Et & L1 & L2).
  { rewrite repeat_length. auto. }
  rewrite Et. cbn [bind]. rewrite repeat_length in L1. eexists _, tr, opt. split; [reflexivity|]. cbn. do 5 (split; [reflexivity|]). split; auto. split; auto. split; auto.
  intros S HN ND HS. apply T2; auto. eapply Forall_impl; [|exact HS]. cbn beta. intros i (Hi & X). split; auto.
  apply filter_In in Hi as [_ Hi]. destruct (L2 i Hi) as [Y|Y]; auto. rewrite nth_repeat in Y. discriminate.
Qed.
Lemma start_ok : forall P tr opt R F0, search_laws ok OP ACC -> wf_gmv g -> (forall y, labeling g y -> ok (R y)) ->
  F0 = 0 -> Res T ok ACC zero g P tr opt R (mkAStar P [mkANode [] zero] tr opt [] (a_ineutral ACC) 0) [].
Proof.
  intros P tr opt R F0 SL WF RK _. split; [|split].
  - split; [repeat split|]. split; [|left; reflexivity]. cbn. unfold cover. cbn. rewrite !app_nil_r. rewrite compl_nil. auto.
  - intros y Hy _. unfold le. cbn. apply (sl_lowest _ _ _ SL). auto.
  - intros k x y H. destruct k; discriminate.
Qed.

Hypothesis SL : search_laws ok OP ACC.
Hypothesis PK : good_pick ok ACC pick.
Hypothesis ZK : ok zero.
Hypothesis WF : wf_gmv g.
Hypothesis OK : ok_gmv ok g.
Hypothesis N0 : 0 < n.
Hypothesis PW : Forall (fun fc => length (fst fc) <= 2) (v_factors g).
Variable para : aparam T.
Hypothesis HH : p_heuristic para <> STANDARDHEURISTIC.
Hypothesis HO : p_nodeOrder para = [] \/ Permutation (p_nodeOrder para) (seq 0 n).
Hypothesis HT : (p_treeFactorIds para = [] /\ simple_pairs g) \/ (p_treeFactorIds para <> [] /\ Forall (fun i => i < length (v_factors g)) (p_treeFactorIds para) /\ forest g (p_treeFactorIds para)).
Hypothesis HS : 100 * size_of (v_labels g) <= 99 * p_maxHeapSize para.
Let R := total OP (without_constants g).

Lemma order_two : v_factorOrder T g <= 2.
Proof.
  unfold v_factorOrder. assert (Y : forall (l : list (list nat * (list nat -> T))) m, m <= 2 -> Forall (fun fc => length (fst fc) <= 2) l -> fold_left (fun m fc => Nat.max m (length (fst fc))) l m <= 2).
  { clear. induction l as [|c l IH]; intros m Hm H; cbn [fold_left]; auto. inversion H; subst. apply IH; auto. lia. }
  apply Y; auto.
Qed.
Lemma result_para : forall P value found s t, p_numberOfOpt P = p_numberOfOpt para -> p_objectiveBound P = p_objectiveBound para ->
  search_result OP ACC g value P stop found s t -> search_result OP ACC g value para stop found s t.
Proof. intros P value found s t E1 E2 []. constructor; auto; rewrite <- ?E1, <- ?E2; auto. Qed.

Lemma fast_search : exists s0 F, astar_new T ACC zero g para = Ret s0 /\
  (forall fuel, F <= fuel -> exists s t, astar_infer T OP ACC zero g solve pick stop fuel s0 = Ret (s, t) /\ search_result OP ACC g R para stop [] s t) /\
  ((forall c, stop c = false) -> (forall x, labeling g x -> a_bop ACC (p_objectiveBound para) (R x) = false) ->
   forall fuel k, F <= fuel -> exists xs, infers (astar_infer T OP ACC zero g solve pick stop fuel) k s0 = Ret xs /\
     best_first OP ACC g xs /\ length xs = Nat.min (k * p_numberOfOpt para) (size_of (v_labels g))).
Proof.
  destruct (new_ok para WF N0 HO HT (fun _ => PW)) as (P & tr & opt & E & P1 & P2 & P3 & P4 & _ & OR & TL & FO & OE).
  assert (HP : p_heuristic P = FASTHEURISTIC).
  { rewrite P4. pose proof order_two as X. destruct (p_heuristic para); auto; [|congruence]. destruct (Nat.leb_spec (v_factorOrder T g) 2); [auto|lia]. }
  assert (RK : forall y, labeling g y -> ok (R y)) by (intros; apply (bare_ok T ok OP ACC SL g OK); auto).
  set (F0 := length (v_factors g) * length (v_factors g) + 1).
  assert (HE : forall fuel s p, F0 <= fuel -> static T P tr opt s -> valid T g P p -> length p < n ->
    exists b, heuristic_of T OP ACC zero g solve fuel s p = Ret b /\ sound_bound T ok ACC g P R p b).
  { intros fuel s p Hf ST VP LP. destruct (fast_ok T ok OP ACC zero g SL WF OK PW P tr opt OR TL FO OE p VP LP s ST fuel Hf) as (b & Eb & B1 & B2).
    exists b. split; [unfold heuristic_of; rewrite (proj1 ST), HP; exact Eb|]. split; [exact B1|]. intros i y d Hi HL HPr. specialize (B2 i y d Hi HL HPr).
    rewrite (bare_seq T ok OP ACC SL zero g OK) in B2 by auto. exact B2. }
  assert (RT : forall x y, labeling g x -> labeling g y -> a_bop ACC (R y) (R x) = false -> a_bop ACC (total OP g y) (total OP g x) = false)
    by (apply (bare_le_total T ok OP ACC SL g OK)).
  assert (HS' : 100 * size_of (v_labels g) <= 99 * p_maxHeapSize P) by (rewrite P1; auto).
  pose proof (start_ok P tr opt R 0 SL WF RK eq_refl) as ST.
  eexists _, (enough T g P F0). split; [exact E|]. split.
  - intros fuel Hf. destruct (infer_ok T ok OP ACC zero g solve pick stop P tr opt R F0 WF OR SL PK ZK N0 HS' RK HE RT fuel _ [] Hf ST) as (s & t & E1 & E2 & _).
    exists s, t. split; auto. eapply result_para; eauto.
  - intros NS NB fuel k Hf. destruct (infers_ok T ok OP ACC zero g solve pick stop P tr opt R F0 WF OR SL PK ZK N0 HS' RK HE RT NS) with (fuel := fuel) (k := k) (s := mkAStar P [mkANode [] zero] tr opt [] (a_ineutral ACC) 0) (F := @nil (list nat)) as (xs & E1 & E2 & E3); auto.
    { rewrite P3. auto. }
    exists xs. split; auto. split; auto. cbn in E3. rewrite P2, Nat.sub_0_r in E3. auto.
Qed.
End FastSearch.
