(** Proofs about A* search: the standard heuristic. *)
From Verif Require Import Base Values GmView ShapeSpec ShapeProofs GmViewSpec GmViewProofs FactorGraphSpec FactorGraphAcyclic MpModel MpSpec ModeSpec AStarModel AStarSpec AStarSearch AStarFast AStarProofs.
From Coq Require Import Permutation Sorted.
Open Scope nat_scope.

Lemma bigo_nth : forall (T A : Type) (OP : oper T) (l : list A) (d : A) (f : A -> T), bigo T OP (seq 0 (length l)) (fun i => f (nth i l d)) = bigo T OP l f.
Proof.
  intros T A OP l d f. induction l as [|a l IH]; auto. cbn [length]. rewrite <- cons_seq. cbn [bigo fold_right]. rewrite <- seq_shift.
  assert (E : forall (l : list nat) (h : nat -> T), fold_right (fun k acc => o_op OP (h k) acc) (o_neutral OP) (map S l) = fold_right (fun k acc => o_op OP (h (S k)) acc) (o_neutral OP) l) by (clear; induction l; intros; cbn; auto; rewrite IHl; auto).
  rewrite E. cbn [nth]. f_equal. exact IH.
Qed.
Lemma filter_map_fst : forall (A : Type) (h : A -> option nat) l,
  map fst (filter (fun p : A * option nat => match snd p with None => true | _ => false end) (combine l (map h l))) = filter (fun v => match h v with None => true | _ => false end) l.
Proof. intros A h. induction l as [|a l IH]; auto. cbn. destruct (h a); cbn; rewrite IH; auto. Qed.

Lemma F2_length : forall (A B : Type) (R : A -> B -> Prop) l m, Forall2 R l m -> length l = length m.
Proof. intros A B R l m H. induction H; cbn; auto. Qed.

Section Standard.
Variable T : Type.
Variable ok : T -> Prop.
Variable OP : oper T.
Variable ACC : accum T.
Variable zero : T.
Variable g : gmv T.
Variable solve : gmv T -> nat -> nat -> outcome (list nat).
Let n := length (v_labels g).
Let lab v := nth v (v_labels g) 0.
Notation op := (o_op OP).
Notation one := (o_neutral OP).
Notation le := (le T ACC).
Notation factor := (list nat * (list nat -> T))%type.
Variable P : aparam T.
Variable tr : list bool.
Variable opt : list (option (nat * list T)).
Let order := p_nodeOrder P.
Let fac i := nth i (v_factors g) ([], fun _ => zero).
Variable p : list nat.
Let next := nth (length p) order 0.
Let nl v := label_of order p v.
Let nodeLabel := map nl (seq 0 n).
Notation agree := (agree T g P p).
Notation rel := (rel T ACC g p).

(** ** The variables without label *)
Definition free (v : nat) : bool := match nl v with None => true | _ => false end.
Definition fr : list nat := filter free (seq 0 n).
Definition rank (v : nat) : nat := length (filter free (seq 0 v)).
Lemma fr_in : forall v, In v fr <-> v < n /\ nl v = None.
Proof. intros v. unfold fr, free. rewrite filter_In, in_seq. destruct (nl v); split; intros []; split; try discriminate; auto; lia. Qed.
Lemma rank_nth : forall v, v < n -> free v = true -> nth_error fr (rank v) = Some v.
Proof.
  intros v Hv Hf. unfold fr. replace n with (v + (n - v)) by lia. rewrite seq_app, filter_app. rewrite nth_error_app2 by (unfold rank; lia).
  unfold rank. rewrite Nat.sub_diag. destruct (n - v) as [|k] eqn:E; [lia|]. cbn [seq filter Nat.add]. rewrite Hf. auto.
Qed.
Lemma rank_lt : forall v, v < n -> free v = true -> rank v < length fr.
Proof. intros v H1 H2. apply nth_error_Some. rewrite rank_nth; auto. discriminate. Qed.
Lemma rank_mono : forall u v, u < v -> free u = true -> rank u < rank v.
Proof.
  intros u v H Hf. unfold rank. replace v with (u + (v - u)) by lia. rewrite seq_app, filter_app, app_length. destruct (v - u) as [|k] eqn:E; [lia|]. cbn [seq filter Nat.add]. rewrite Hf. cbn. lia.
Qed.
Lemma nth_rank : forall (h : nat -> nat) v, v < n -> free v = true -> nth (rank v) (map h fr) 0 = h v.
Proof. intros h v H1 H2. apply nth_error_nth. rewrite nth_error_map, rank_nth; auto. Qed.
Lemma varMap_ok : varMap T g nodeLabel = (map (fun v => if free v then rank v else 0) (seq 0 n), map lab fr).
Proof.
  unfold varMap. assert (LN : length nodeLabel = n) by (unfold nodeLabel; rewrite map_length, seq_length; auto). rewrite LN.
  assert (X : forall m, m <= n -> fold_left (fun (st : list nat * list nat) v =>
      match nth v nodeLabel None with
      | Some _ => (fst st ++ [0], snd st)
      | None => (fst st ++ [length (snd st)], snd st ++ [nth v (v_labels g) 0])
      end) (seq 0 m) ([], []) = (map (fun v => if free v then rank v else 0) (seq 0 m), map lab (filter free (seq 0 m)))).
  { induction m as [|m IH]; intros Hm; auto. rewrite seq_S, fold_left_app, IH by lia. cbn [fold_left Nat.add fst snd]. rewrite map_app, filter_app, map_app. cbn [map filter].
    unfold nodeLabel. rewrite nth_map_seq by lia. destruct (nl m) eqn:E.
    - assert (FM : free m = false) by (unfold free; rewrite E; auto). rewrite FM. cbn [map]. rewrite app_nil_r. auto.
    - assert (FM : free m = true) by (unfold free; rewrite E; auto). rewrite FM. cbn [map]. rewrite map_length. unfold rank. auto. }
  apply X. auto.
Qed.
Definition res (y : list nat) : list nat := map (fun v => nth v y 0) fr.
Definition kept (vis : list nat) : list nat := filter free vis.
Lemma at_res : forall y vis, Forall (fun v => v < n) vis -> at_vars (res y) (map rank (kept vis)) = map (fun v => nth v y 0) (kept vis).
Proof.
  intros y vis H. unfold at_vars. rewrite map_map. apply map_ext_in. intros v Hv. apply filter_In in Hv as [Hv Hf]. rewrite Forall_forall in H.
  unfold res. apply (nth_rank (fun v => nth v y 0)); auto.
Qed.
Lemma kept_sorted : forall vis, StronglySorted lt vis -> Forall (fun v => v < n) vis -> StronglySorted lt (map rank (kept vis)) /\ Forall (fun k => k < length fr) (map rank (kept vis)).
Proof.
  intros vis H HV. unfold kept. induction H as [|a l H IH F]; cbn; [split; constructor|]. inversion HV; subst. destruct (IH H3) as [I1 I2].
  destruct (free a) eqn:E; auto. cbn [map]. split; constructor; auto.
  - apply Forall_forall. intros k Hk. apply in_map_iff in Hk as (v & <- & Hv). apply filter_In in Hv as [Hv _]. rewrite Forall_forall in F. apply rank_mono; auto.
  - apply rank_lt; auto.
Qed.

(** ** Hypotheses *)
Hypothesis SL : search_laws ok OP ACC.
Hypothesis WF : wf_gmv g.
Hypothesis OK : fin_gmv ok g.
Hypothesis OR : Permutation order (seq 0 n).
Hypothesis TL : length tr = length (v_factors g).
Hypothesis OE : mapM (optimize T ACC g) (v_factors g) = Ret opt.
Hypothesis VP : valid T g P p.
Hypothesis LP : length p < n.
Lemma nlab : forall y v a, agree y -> v < n -> nl v = Some a -> nth v y 0 = a.
Proof. exact (nl_label T g P tr OR TL p LP). Qed.
Lemma merge_ok : forall y vis, agree y -> Forall (fun v => v < n) vis -> merge (map nl vis) (map (fun v => nth v y 0) (kept vis)) = at_vars y vis.
Proof.
  intros y vis Hy H. unfold kept, at_vars. induction H as [|v vis Hv H IH]; auto. cbn [map filter merge]. destruct (nl v) as [a|] eqn:E.
  - assert (FM : free v = false) by (unfold free; rewrite E; auto). rewrite FM, IH. f_equal. symmetry. apply nlab; auto.
  - assert (FM : free v = true) by (unfold free; rewrite E; auto). rewrite FM. cbn [map hd tl]. rewrite IH. auto.
Qed.
Lemma fac_ok : forall i, i < length (v_factors g) -> nth_error (v_factors g) i = Some (fac i) /\ StronglySorted lt (fst (fac i)) /\ Forall (fun v => v < n) (fst (fac i)).
Proof.
  intros i H. assert (E : nth_error (v_factors g) i = Some (fac i)) by (apply nth_error_nth'; auto). split; auto.
  destruct WF as [W _]. rewrite Forall_forall in W. apply W. eapply nth_error_In; eauto.
Qed.
Lemma fvok : forall y i, i < length (v_factors g) -> labeling g y -> ok (fval T zero g y i).
Proof. intros y i H HL. unfold fin_gmv in OK. rewrite Forall_forall in OK. apply (OK (fac i)); auto. eapply nth_error_In, fac_ok; auto. Qed.
Lemma total_seq : forall y, labeling g y -> total OP g y = bigo T OP (seq 0 (length (v_factors g))) (fval T zero g y).
Proof.
  intros y HL. rewrite (total_bigo T ok OP ACC SL g OK) by auto. symmetry. exact (bigo_nth T _ OP (v_factors g) ([], fun _ => zero) (fun fc => snd fc (at_vars y (fst fc)))).
Qed.
(** Every labeling of the variables without label is part of a labeling. *)
Lemma extend : forall x, in_shape (map lab fr) x -> exists y, agree y /\ res y = x.
Proof.
  intros x Hx. destruct (agree_exists T g WF P OR p VP) as (y0 & H0).
  set (y := map (fun v => if free v then nth (rank v) x 0 else nth v y0 0) (seq 0 n)).
  assert (NY : forall v, v < n -> nth v y 0 = if free v then nth (rank v) x 0 else nth v y0 0) by (intros v Hv; unfold y; apply (nth_map_seq _ (fun v => if free v then nth (rank v) x 0 else nth v y0 0)); auto).
  exists y. split; [split|].
  - apply in_shape_nths; [unfold y; rewrite map_length, seq_length; auto|]. intros v Hv. rewrite NY by auto. destruct (free v) eqn:E.
    + pose proof (in_shape_lt _ _ (rank v) Hx) as X. rewrite map_length in X. specialize (X (rank_lt v Hv E)). rewrite nth_rank in X; auto.
    + apply in_shape_lt; auto. apply H0.
  - apply (pre_iff T g P OR p y); [lia|]. intros k Hk. rewrite NY by (apply (order_lt T g P OR); lia). assert (E : nl (nth k order 0) = Some (nth k p 0)) by exact (nl_known T g P tr OR TL p LP k Hk).
    unfold free. fold order. rewrite E.
    apply (nlab y0); auto. apply (order_lt T g P OR). lia.
  - apply nth_ext with (d := 0) (d' := 0); [unfold res; rewrite map_length; rewrite (in_shape_length _ _ Hx), map_length; auto|].
    unfold res. rewrite map_length. intros k Hk. destruct (nth_error_lt _ fr k Hk) as (v & E). erewrite nth_error_nth by (rewrite nth_error_map, E; cbn; reflexivity).
    pose proof (nth_error_In _ _ E) as Hv. apply fr_in in Hv as [Hv Hf]. assert (F : free v = true) by (unfold free; rewrite Hf; auto).
    rewrite NY by auto. rewrite F. f_equal. pose proof (rank_nth v Hv F) as E2.
    assert (ND : NoDup fr) by (apply NoDup_filter, seq_NoDup). eapply (proj1 (NoDup_nth_error fr) ND); [apply rank_lt; auto|]. congruence.
Qed.
Lemma res_labeling : forall y, labeling g y -> in_shape (map lab fr) (res y).
Proof.
  intros y HL. apply in_shape_nths; [unfold res; rewrite !map_length; auto|]. rewrite map_length. intros k Hk. destruct (nth_error_lt _ fr k Hk) as (v & E).
  unfold res. rewrite (nth_error_nth (map (fun v => nth v y 0) fr) k 0 (map_nth_error _ _ _ E)), (nth_error_nth (map lab fr) k 0 (map_nth_error _ _ _ E)). apply in_shape_lt; auto. apply nth_error_In in E. apply fr_in in E. apply E.
Qed.

(** ** The loop over the factors *)
Hypothesis LT : forall i v vis, i < length (v_factors g) -> fst (fac i) = v :: vis -> nth i tr false = false -> free v = false -> length (kept vis) <= 1.
Variable s : astar T.
Hypothesis ST : static T P tr opt s.
Let mp := map (fun v => if free v then rank v else 0) (seq 0 n).
Definition shape (i : nat) (fc : factor) : Prop :=
  StronglySorted lt (fst fc) /\ Forall (fun k => k < length fr) (fst fc) /\
  (length (fst fc) <= 1 \/ (nth i tr false = true /\ fst fc = map rank (kept (fst (fac i))))).
Definition val (y : list nat) (fc : factor) : T := fv T (res y) fc.
Definition Loop (k : nat) (st : list factor * T) : Prop :=
  (exists src, NoDup src /\ Forall (fun i => i < k) src /\ Forall2 shape src (fst st)) /\ ok (snd st) /\
  forall y, agree y -> (forall fc, In fc (fst st) -> ok (val y fc)) /\ rel (op (bigo T OP (fst st) (val y)) (snd st)) (bigo T OP (seq 0 k) (fval T zero g y)).
Lemma loop_val : forall k, k <= length (v_factors g) -> forall y, agree y -> ok (bigo T OP (seq 0 k) (fval T zero g y)).
Proof. intros k Hk y Hy. apply (bigo_ok T ok OP ACC SL). intros i Hi. apply in_seq in Hi. apply fvok; [lia|apply Hy]. Qed.
Lemma loop_next : forall k, k < length (v_factors g) -> forall y, agree y -> bigo T OP (seq 0 (S k)) (fval T zero g y) = op (fval T zero g y k) (bigo T OP (seq 0 k) (fval T zero g y)).
Proof.
  intros k Hk y Hy. assert (K : ok (fval T zero g y k)) by (apply fvok; [auto|apply Hy]). rewrite seq_S, (bigo_app T ok OP ACC SL).
  - cbn [bigo fold_right Nat.add]. rewrite (unit_r T ok OP ACC SL) by auto. apply (sl_comm _ _ _ SL); auto. apply loop_val; auto. lia.
  - intros i Hi. apply in_app_or in Hi as [Hi|[<-|[]]]; auto. apply in_seq in Hi. apply fvok; [lia|apply Hy].
Qed.
(** One more factor in the model. *)
Lemma loop_factor : forall k fs c fc, k < length (v_factors g) -> Loop k (fs, c) -> shape k fc ->
  (forall y, agree y -> ok (val y fc) /\ rel (val y fc) (fval T zero g y k)) -> Loop (S k) (fs ++ [fc], c).
Proof.
  intros k fs c fc Hk ((src & N1 & N2 & N3) & Kc & H) SH HV. cbn [fst snd] in *. split; [|split; auto].
  - exists (src ++ [k]). split; [|split].
    + rewrite Forall_forall in N2. apply Permutation_NoDup with (l := k :: src); [apply Permutation_cons_append|]. constructor; auto. intros X. specialize (N2 k X). lia.
    + apply Forall_app. split; [eapply Forall_impl; [|exact N2]; cbn; lia|constructor; [lia|constructor]].
    + cbn [fst]. apply Forall2_app; auto.
  - cbn [fst snd]. intros y Hy. destruct (H y Hy) as [H1 H2]. destruct (HV y Hy) as [V1 V2].
    assert (K1 : ok (bigo T OP fs (val y))) by (apply (bigo_ok T ok OP ACC SL); auto).
    assert (KA : forall f, In f (fs ++ [fc]) -> ok (val y f)) by (intros f Hf; apply in_app_or in Hf as [Hf|[<-|[]]]; auto).
    split; auto. rewrite (bigo_app T ok OP ACC SL) by auto. cbn [bigo fold_right]. fold (bigo T OP fs (val y)). rewrite (unit_r T ok OP ACC SL) by auto.
    rewrite loop_next by auto. rewrite (sl_comm _ _ _ SL (bigo T OP fs (val y)) (val y fc)) by auto. rewrite <- (sl_assoc _ _ _ SL) by auto.
    apply (rel_op T ok OP ACC g SL p); auto.
    + apply fvok; [auto|apply Hy].
    + apply (sl_op _ _ _ SL); auto.
    + apply loop_val; auto. lia.
Qed.
Lemma kept_rd : forall vis, Forall (fun v => v < n) vis -> mapM (rd mp) (kept vis) = Ret (map rank (kept vis)).
Proof.
  intros vis H. apply mapM_all. intros v Hv. apply filter_In in Hv as [Hv Hf]. rewrite Forall_forall in H. unfold mp.
  rewrite (rd_nth _ _ v 0) by (rewrite map_length, seq_length; auto). rewrite (nth_map_seq _ (fun v => if free v then rank v else 0)) by auto. rewrite Hf. auto.
Qed.
Lemma loop_step : forall k st, k < length (v_factors g) -> Loop k st -> exists st', sub_factor T OP zero g s nodeLabel mp st k = Ret st' /\ Loop (S k) st'.
Proof.
  intros k [fs c] Hk HL. destruct (fac_ok k Hk) as (Ek & SO & BD). unfold sub_factor. rewrite (rd_Ret _ _ _ _ Ek). cbn [bind].
  destruct (fac k) as [vis F] eqn:EF. cbn [fst snd] in *.
  assert (VAL : forall y, fval T zero g y k = F (at_vars y vis)) by (intros y; unfold fval; fold (fac k); rewrite EF; auto).
  rewrite (mapM_all _ _ (rd nodeLabel) nl).
  2:{ intros v Hv. rewrite Forall_forall in BD. apply (nl_rd T g P p v). auto. }
  cbn [bind]. rewrite filter_map_fst. change (filter (fun v => match nl v with None => true | _ => false end) vis) with (kept vis).
  rewrite kept_rd by auto. cbn [bind].
  assert (EX : forall y, agree y -> val y (map rank (kept vis), fun c => F (merge (map nl vis) c)) = fval T zero g y k).
  { intros y Hy. unfold val, fv. cbn [fst snd]. rewrite at_res, merge_ok by auto. auto. }
  destruct (kept_sorted vis SO BD) as [KS1 KS2].
  destruct (kept vis) as [|v1 vs1] eqn:EK.
  - cbn [map]. eexists. split; [reflexivity|]. destruct HL as ((src & N1 & N2 & N3) & Kc & H). cbn [fst snd] in *.
    assert (CV : forall y, agree y -> F (merge (map nl vis) []) = fval T zero g y k).
    { intros y Hy. rewrite VAL, <- (merge_ok y vis) by auto. rewrite EK. auto. }
    assert (KC : ok (F (merge (map nl vis) []))).
    { destruct (agree_exists T g WF P OR p VP) as (y0 & H0). rewrite (CV y0 H0). apply fvok; auto. apply H0. }
    split; [|split].
    + exists src. split; auto. split; auto. eapply Forall_impl; [|exact N2]. cbn. lia.
    + cbn [snd]. apply (sl_op _ _ _ SL); auto.
    + cbn [fst snd]. intros y Hy. destruct (H y Hy) as [H1 H2]. split; auto. assert (K1 : ok (bigo T OP fs (val y))) by (apply (bigo_ok T ok OP ACC SL); auto).
      rewrite loop_next by auto. rewrite (op_swap T ok OP ACC SL) by auto. rewrite <- (CV y Hy). apply (rel_op T ok OP ACC g SL p); auto.
      * apply (sl_op _ _ _ SL); auto.
      * apply loop_val; auto. lia.
      * apply (rel_refl T ok OP ACC g SL p); auto.
  - assert (NE : kept vis <> []) by (rewrite EK; discriminate). rewrite <- EK in *. clear EK. set (ms := map rank (kept vis)) in *.
    assert (M1 : exists m1 ms1, ms = m1 :: ms1) by (unfold ms; destruct (kept vis); [|cbn; eauto]; congruence).
    assert (KV : forall y, agree y -> ok (fval T zero g y k)) by (intros y Hy; apply fvok; [auto|apply Hy]).
    assert (GOOD : (length ms <= 1 \/ nth k tr false = true) -> Loop (S k) (fs ++ [(ms, fun c => F (merge (map nl vis) c))], c)).
    { intros C. apply loop_factor; auto.
      - split; auto. split; auto. cbn [fst]. destruct C as [C|C]; [left; auto|right; split; auto]. rewrite EF. auto.
      - intros y Hy. unfold ms. rewrite EX by auto. split; auto. apply (rel_refl T ok OP ACC g SL p); auto. }
    assert (GO : exists st', (t <- rd (as_isTreeFactor s) k ;;
      (if (length ms <? 2) || t then Ret (fs ++ [(ms, fun c => F (merge (map nl vis) c))], c)
       else o <- rd (as_optimizedFactor s) k ;;
         match o with
         | Some (v, t) => m <- rd mp v ;; Ret (fs ++ [([m], fun c => nth (hd 0 c) t zero)], c)
         | None => Undef
         end)) = Ret st' /\ Loop (S k) st').
    { destruct ST as (_ & -> & ->). rewrite (rd_nth _ tr k false) by lia. cbn [bind]. destruct (Nat.ltb_spec (length ms) 2) as [C|C].
      - cbn [orb]. eexists. split; [reflexivity|]. apply GOOD. left; lia.
      - destruct (nth k tr false) eqn:ET; cbn [orb]; [eexists; split; [reflexivity|]; apply GOOD; auto|].
        destruct vis as [|v [|w ws]]; [cbn in C; lia|unfold ms, kept in C; rewrite map_length in C; cbn in C; destruct (free v); cbn in C; lia|].
        destruct (optimize_ok T ok OP ACC zero g SL WF OK tr opt TL OE k v w ws Hk) as (t & Eo & Lt & Ht). { fold (fac k). rewrite EF. auto. }
        rewrite (rd_Ret _ _ _ _ Eo). cbn [bind]. inversion BD as [|? ? Hv BD']; subst.
        assert (FV : free v = true).
        { destruct (free v) eqn:EFv; auto. exfalso. pose proof (LT k v (w :: ws) Hk) as X. rewrite EF in X. specialize (X eq_refl ET EFv). unfold ms in C. rewrite map_length in C. unfold kept in *. cbn [filter] in C, X. rewrite EFv in C. lia. }
        unfold mp at 1. rewrite (rd_nth _ _ v 0) by (rewrite map_length, seq_length; auto). rewrite (nth_map_seq _ (fun v => if free v then rank v else 0)) by auto. rewrite FV. cbn [bind].
        eexists. split; [reflexivity|]. apply loop_factor; auto.
        + split; [repeat constructor|]. split; [constructor; [apply rank_lt; auto|constructor]|]. left. cbn. lia.
        + intros y Hy. unfold val, fv. cbn [fst snd]. unfold at_vars. cbn [map hd]. unfold res. rewrite (nth_rank (fun v => nth v y 0)) by auto.
          destruct (Ht y (proj1 Hy)) as [Q1 Q2]. split; auto. split; auto. intros S1. exfalso.
          unfold ms in C. rewrite map_length in C.
          assert (SG : forall u, In u (kept (v :: w :: ws)) -> u = next).
          { intros u Hu. apply filter_In in Hu as [Hu Hf]. rewrite Forall_forall in BD. apply (nl_single T g P tr OR TL p LP); auto. unfold free in Hf. change (nl u = None). destruct (nl u); [discriminate|auto]. }
          assert (ND : NoDup (kept (v :: w :: ws))) by (apply NoDup_filter, sorted_nodup; auto).
          destruct (kept (v :: w :: ws)) as [|a [|b l]]; cbn in C; try lia. inversion ND as [|? ? NI _]; subst. apply NI. rewrite (SG a), (SG b); cbn; auto. }
    destruct M1 as (m1 & ms1 & EM). rewrite EM in *. exact GO.
Qed.

(** ** The model of the variables without label *)
Hypothesis TA : forall c, cycle (FactorGraphSpec.edge (fgraph_of T g)) c -> exists f, In (NF f) c /\ nth f tr false = false.
Lemma sub_ok : exists fs c, sub_model T OP zero g s p = Ret (mkGmv (map lab fr) (fs ++ [([], fun _ => c)]), mp) /\ Loop (length (v_factors g)) (fs, c).
Proof.
  unfold sub_model. destruct ST as (E & _). rewrite E. change (map (label_of (p_nodeOrder P) p) (seq 0 (length (v_labels g)))) with nodeLabel. rewrite varMap_ok. cbn [fst snd].
  destruct (foldM_ind _ _ (sub_factor T OP zero g s nodeLabel mp) Loop (seq 0 (length (v_factors g))) ([], one)) as ([fs c] & E1 & H1).
  - split; [exists []; repeat constructor|]. split; [apply (sl_neutral _ _ _ SL)|]. intros y Hy. split; [intros fc []|]. cbn. rewrite (sl_unit _ _ _ SL) by (apply (sl_neutral _ _ _ SL)). apply (rel_refl T ok OP ACC g SL p). apply (sl_neutral _ _ _ SL).
  - intros k a st Hk HL. assert (Ha : a = k /\ k < length (v_factors g)).
    { pose proof (proj1 (nth_error_Some (seq 0 (length (v_factors g))) k)) as X. rewrite Hk in X. specialize (X ltac:(discriminate)). rewrite seq_length in X.
      rewrite (nth_error_nth' _ 0) in Hk by (rewrite seq_length; auto). rewrite seq_nth in Hk by auto. injection Hk as <-. auto. }
    destruct Ha as [-> Ha]. apply loop_step; auto.
  - rewrite seq_length in H1. fold mp. rewrite E1. cbn [bind]. eauto.
Qed.
Section Sub.
Variable fs : list factor.
Variable c : T.
Hypothesis LO : Loop (length (v_factors g)) (fs, c).
Let m := mkGmv (map lab fr) (fs ++ [([], fun _ : list nat => c)]).
Lemma sub_wf : wf_gmv m.
Proof.
  destruct LO as ((src & _ & _ & H) & _). cbn [fst] in H. split.
  - cbn [v_factors v_labels m]. rewrite map_length. apply Forall_app. split; [|repeat constructor]. clear - H. induction H as [|i fc l l' S1 H IH]; constructor; auto. destruct S1 as (A & B & _). auto.
  - cbn. apply Forall_forall. intros x Hx. apply in_map_iff in Hx as (v & <- & Hv). apply fr_in in Hv as [Hv _]. destruct WF as [_ PO]. unfold positive in PO. rewrite Forall_forall in PO. apply PO, nth_In. auto.
Qed.
Lemma sub_fin : ok_gmv ok m.
Proof.
  destruct LO as (_ & Kc & H). cbn [fst snd] in *. apply Forall_forall. intros fc Hf x Hx. destruct (extend x Hx) as (y & Hy & <-). cbn in Hf. apply in_app_or in Hf as [Hf|[<-|[]]]; [|exact Kc]. apply (proj1 (H y Hy)); auto.
Qed.
Lemma sub_total : forall y, agree y -> rel (total OP m (res y)) (total OP g y).
Proof.
  intros y Hy. rewrite (total_bigo T ok OP ACC SL m sub_fin) by (apply res_labeling; apply Hy). rewrite total_seq by apply Hy.
  destruct LO as (_ & Kc & H). destruct (H y Hy) as [H1 H2]. cbn [fst snd] in *. cbn [m v_factors]. rewrite (bigo_app T ok OP ACC SL).
  - cbn [bigo fold_right]. unfold fv at 2. cbn [snd]. rewrite (unit_r T ok OP ACC SL) by auto. exact H2.
  - intros fc Hf. apply in_app_or in Hf as [Hf|[<-|[]]]; [apply H1; auto|exact Kc].
Qed.
Lemma map_path : forall (A B : Type) (R : A -> A -> Prop) (Q : B -> B -> Prop) (h : A -> B) l, (forall a b, In a l -> In b l -> R a b -> Q (h a) (h b)) -> path R l -> path Q (map h l).
Proof.
  induction l as [|a l IH]; intros H HP; cbn; auto. destruct l as [|b l]; cbn in *; auto. destruct HP as [H1 H2]. split; [apply H; auto|]. apply IH; auto. 
Qed.
Lemma sub_acyclic : acyclic m.
Proof.
  destruct LO as ((src & N1 & N2 & N3) & _). cbn [fst] in N3. pose proof (F2_length _ _ _ _ _ N3) as LS.
  intros l C. set (h := fun x => match x with NV k => NV (nth k fr 0) | NF j => NF (nth j src 0) end).
  assert (INC : forall f k, incident (fgraph_of T m) f k -> exists ms F, nth_error fs f = Some (ms, F) /\ In k ms).
  { intros f k (vs & E & Hk). cbn in E. rewrite map_app in E. cbn [map fst] in E. destruct (lt_dec f (length fs)) as [Hf|Hf].
    - rewrite nth_error_app1 in E by (rewrite map_length; auto). rewrite nth_error_map in E. destruct (nth_error fs f) as [[ms F]|] eqn:Ef; [|discriminate]. cbn in E. injection E as <-. eauto.
    - rewrite nth_error_app2 in E by (rewrite map_length; lia). rewrite map_length in E. destruct (f - length fs) as [|[|z]]; cbn in E; try discriminate. injection E as <-. destruct Hk. }
  assert (SH : forall f ms F, nth_error fs f = Some (ms, F) -> exists i, nth_error src f = Some i /\ shape i (ms, F)).
  { clear - N3. induction N3 as [|i fc l l' S1 H IH]; intros f ms F E; destruct f; cbn in *; try discriminate; [injection E as ->; eauto|eauto]. }
  assert (SYM : forall a b, FactorGraphSpec.edge (fgraph_of T m) a b -> FactorGraphSpec.edge (fgraph_of T m) b a) by (intros [a|a] [b|b]; cbn; auto).
  assert (TREE : forall f, In (NF f) l -> exists i ms F, nth_error src f = Some i /\ i < length (v_factors g) /\ nth_error fs f = Some (ms, F) /\ nth i tr false = true /\ ms = map rank (kept (fst (fac i)))).
  { intros f Hf. destruct (cycle_two _ _ _ _ SYM C Hf) as (a & b & Ne & _ & _ & _ & _ & E1 & E2). destruct a as [a|a]; [|destruct E1]. destruct b as [b|b]; [|destruct E2]. cbn in E1, E2.
    destruct (INC _ _ E1) as (ms & F & Ef & Ha). destruct (INC _ _ E2) as (ms' & F' & Ef' & Hb). rewrite Ef in Ef'. injection Ef' as <- <-.
    destruct (SH _ _ _ Ef) as (i & Ei & _ & _ & [X|[X1 X2]]).
    - exfalso. cbn in X. destruct ms as [|u [|w ms]]; cbn in X; try lia; [destruct Ha|]. destruct Ha as [<-|[]]. destruct Hb as [<-|[]]. congruence.
    - exists i, ms, F. split; auto. split; [rewrite Forall_forall in N2; eapply N2, nth_error_In; eauto|]. auto. }
  assert (VAR : forall k, In (NV k) l -> k < length fr).
  { intros k Hk. destruct (cycle_two _ _ _ _ SYM C Hk) as (a & b & Ne & Ia & _ & _ & _ & E1 & E2). destruct a as [a|a]; [destruct E1|]. cbn in E1. destruct (INC _ _ E1) as (ms & F & Ef & Ha).
    destruct (SH _ _ _ Ef) as (i & Ei & _ & B & _). rewrite Forall_forall in B. auto. }
  assert (EDGE : forall f k, In (NF f) l -> incident (fgraph_of T m) f k -> incident (fgraph_of T g) (nth f src 0) (nth k fr 0)).
  { intros f k Hf HI. destruct (TREE f Hf) as (i & ms & F & Ei & Hi & Ef & _ & ->). destruct (INC _ _ HI) as (ms' & F' & Ef' & Hk). rewrite Ef in Ef'. injection Ef' as <- <-.
    apply in_map_iff in Hk as (v & <- & Hv). apply filter_In in Hv as [Hv Fv]. destruct (fac_ok i Hi) as (Ei' & _ & BD). rewrite Forall_forall in BD.
    rewrite (nth_error_nth _ _ _ (rank_nth v (BD v Hv) Fv)), (nth_error_nth _ _ _ Ei). exists (fst (fac i)). split; auto. cbn. rewrite nth_error_map, Ei'. auto. }
  assert (CY : cycle (FactorGraphSpec.edge (fgraph_of T g)) (map h l)).
  { pose proof C as [ND [C1 [C2 C3]]]. split; [|split; [|split]].
    - apply NoDup_map_in; auto. intros a b Ha Hb E. destruct a as [a|a], b as [b|b]; cbn in E; try discriminate; injection E as E; f_equal.
      + eapply (proj1 (NoDup_nth fr 0)); auto. apply NoDup_filter, seq_NoDup.
      + destruct (TREE a Ha) as (i & _ & _ & Ei & _). destruct (TREE b Hb) as (j & _ & _ & Ej & _). rewrite (nth_error_nth _ _ _ Ei), (nth_error_nth _ _ _ Ej) in E. subst j.
        eapply (proj1 (NoDup_nth_error src) N1); [apply nth_error_Some; congruence|congruence].
    - rewrite map_length. auto.
    - eapply map_path; [|exact C2]. intros a b Ha Hb E. destruct a as [a|a], b as [b|b]; cbn in *; auto.
    - intros a t E. destruct l as [|a' t']; [discriminate|]. cbn in E. injection E as <- <-. specialize (C3 a' t' eq_refl).
      assert (LM : forall t a, last (map h t) (h a) = h (last t a)) by (clear; intros t; induction t as [|b t IH]; intros a; auto; cbn; destruct t; auto; apply IH).
      rewrite LM. assert (In (last t' a') (a' :: t')). { clear. destruct t' as [|b t]; [left; auto|]. right. destruct (exists_last (l := b :: t) ltac:(discriminate)) as (l & z & ->). rewrite last_last. apply in_or_app. right; left; auto. }
      revert C3 H. generalize (last t' a'). intros z C3 Hz. assert (Ha : In a' (a' :: t')) by (left; auto). destruct z as [z|z], a' as [a|a]; cbn in *; auto. }
  destruct (TA _ CY) as (f & Hf & Tf). apply in_map_iff in Hf as ([k|j] & Eh & Hj); cbn in Eh; [discriminate|]. injection Eh as <-.
  destruct (TREE j Hj) as (i & _ & _ & Ei & _ & _ & Ti & _). rewrite (nth_error_nth _ _ _ Ei) in Tf. congruence.
Qed.
End Sub.
Hypothesis SV : tree_solver ok OP ACC g solve.
Lemma standard_ok : exists b, standardHeuristic T OP zero g solve s p = Ret b /\ sound_bound T ok ACC g P (total OP g) p b.
Proof.
  unfold standardHeuristic. destruct sub_ok as (fs & c & E & LO). assert (EP : as_param s = P) by apply ST. rewrite EP.
  assert (HN : next < n) by (apply (order_lt T g P OR); auto). assert (OL : length order = n) by exact (order_len T g P OR).
  change (p_nodeOrder P) with order. rewrite (rd_nth _ order (length p) 0) by lia. cbn [bind]. fold next. rewrite E. cbn [bind].
  assert (FN : free next = true). { unfold free. assert (X : nl next = None) by exact (nl_unknown T g P tr OR TL p LP (length p) (le_n _) LP). rewrite X. auto. }
  unfold mp. rewrite (rd_nth _ _ next 0) by (rewrite map_length, seq_length; auto). rewrite (nth_map_seq _ (fun v => if free v then rank v else 0)) by auto. rewrite FN. cbn [bind].
  rewrite (rd_nth _ (v_labels g) next 0) by auto. cbn [bind].
  set (m := mkGmv (map lab fr) (fs ++ [([], fun _ : list nat => c)])).
  pose proof (sub_wf fs c LO) as W. pose proof (sub_fin fs c LO) as K. pose proof (sub_acyclic fs c LO) as A. fold m in W, K, A.
  assert (RL : rank next < length (v_labels m)) by (cbn; rewrite map_length; apply rank_lt; auto).
  assert (LM : nth (rank next) (v_labels m) 0 = lab next) by (cbn; apply nth_rank; auto).
  assert (SO : forall i, i < lab next -> exists x, solve m (rank next) i = Ret x /\ optimal_given OP ACC m [(rank next, i)] x).
  { intros i Hi. apply SV; auto.
    - intros x Hx. cbn in Hx. apply in_map_iff in Hx as (v & <- & Hv). apply fr_in in Hv as [Hv _]. apply nth_In. auto.
    - rewrite LM. auto. }
  assert (X : exists b, mapM (fun i => x <- solve m (rank next) i ;; v_evaluate T OP m x) (seq 0 (lab next)) = Ret b /\ length b = lab next /\
    forall j d, j < lab next -> exists x, optimal_given OP ACC m [(rank next, j)] x /\ nth j b d = total OP m x).
  { assert (Y : forall l, (forall i, In i l -> i < lab next) -> exists b, mapM (fun i => x <- solve m (rank next) i ;; v_evaluate T OP m x) l = Ret b /\ Forall2 (fun i v => exists x, optimal_given OP ACC m [(rank next, i)] x /\ v = total OP m x) l b).
    { induction l as [|i l IH]; intros Hl; [exists []; split; auto; constructor|]. destruct IH as (b & Eb & Fb); [intros; apply Hl; right; auto|]. destruct (SO i (Hl i (or_introl eq_refl))) as (x & Ex & Ox).
      cbn [mapM]. rewrite Ex. cbn [bind]. rewrite v_evaluate_total by (auto; apply labeling_length; apply Ox). cbn [bind]. rewrite Eb. cbn [bind]. eexists. split; [reflexivity|]. constructor; eauto. }
    destruct (Y (seq 0 (lab next))) as (b & Eb & Fb); [intros i Hi; apply in_seq in Hi; lia|]. exists b. split; auto. pose proof (F2_length _ _ _ _ _ Fb) as LB. rewrite seq_length in LB. split; auto.
    intros j d Hj. assert (Z : forall l b, Forall2 (fun i v => exists x, optimal_given OP ACC m [(rank next, i)] x /\ v = total OP m x) l b -> forall j i, nth_error l j = Some i -> exists x, optimal_given OP ACC m [(rank next, i)] x /\ nth j b d = total OP m x).
    { clear. intros l b H. induction H as [|i v l b H1 H IH]; intros j k Ek; destruct j; cbn in *; try discriminate; [injection Ek as ->; auto|eauto]. }
    apply (Z _ _ Fb). rewrite (nth_error_nth' _ 0) by (rewrite seq_length; auto). rewrite seq_nth by auto. auto. }
  destruct X as (b & Eb & Lb & Hb). exists b. split; [exact Eb|]. split; [exact Lb|]. intros j y d Hj HLy HPy.
  rewrite pre_snoc with (g := g) in HPy by auto. apply andb_true_iff in HPy as [HP1 HP2]. apply Nat.eqb_eq in HP2. change (nth next y 0 = j) in HP2.
  assert (Hy : agree y) by (split; auto). destruct (Hb j d ltac:(lia)) as (x & (Ox1 & Ox2 & Ox3) & ->).
  pose proof (sub_total fs c LO y Hy) as [R1 R2]. fold m in R1, R2. assert (HR : labeling m (res y)) by (apply res_labeling; auto).
  assert (RN : nth_error (res y) (rank next) = Some j).
  { unfold res. rewrite nth_error_map, rank_nth by auto. cbn. rewrite HP2. auto. }
  assert (K1 : ok (total OP m x)) by (apply (total_ok T ok OP ACC SL m K); auto). assert (K2 : ok (total OP m (res y))) by (apply (total_ok T ok OP ACC SL m K); auto).
  assert (K3 : ok (total OP g y)) by (apply (total_ok T ok OP ACC SL g OK); auto).
  split; auto. split.
  - apply (le_trans T ok OP ACC SL _ (total OP m (res y))); auto. apply (Ox3 (res y)); auto.
  - intros S1. rewrite <- R2 by auto. f_equal.
    assert (F1 : length fr = 1).
    { assert (ND : NoDup fr) by (apply NoDup_filter, seq_NoDup). assert (SG : forall u, In u fr -> u = next) by (intros u Hu; apply fr_in in Hu as [Hu Hf]; apply (nl_single T g P tr OR TL p LP); auto).
      assert (IN : In next fr) by (apply filter_In; split; [apply in_seq; lia|auto]).
      destruct fr as [|a [|b' l]]; [destruct IN|auto|]. exfalso. inversion ND as [|? ? NI _]; subst. apply NI. rewrite (SG a), (SG b'); cbn; auto. }
    inversion Ox2 as [|? ? Ox _]; subst. cbn in Ox.
    assert (L1 : length x = 1) by (rewrite (labeling_length _ _ _ Ox1); cbn; rewrite map_length; auto).
    assert (L2 : length (res y) = 1) by (unfold res; rewrite map_length; auto).
    destruct x as [|x0 [|]]; cbn in L1; try lia. destruct (res y) as [|z0 [|]]; cbn in L2; try lia.
    destruct (rank next) as [|[|]]; cbn in *; congruence.
Qed.
End Standard.

(** ** The search with this heuristic *)
Lemma mark_iff : forall ids l l', foldM (fun l i => wr l i true) ids l = Ret l' -> length l' = length l /\ forall i, i < length l -> (nth i l' false = true <-> nth i l false = true \/ In i ids).
Proof.
  induction ids as [|a ids IH]; intros l l' E; cbn [foldM] in E.
  - injection E as <-. split; auto. intros i _. cbn. tauto.
  - destruct (lt_dec a (length l)) as [Ha|Ha].
    + rewrite wr_Ret in E by auto. cbn [bind] in E. destruct (IH _ _ E) as [L1 L2]. rewrite length_upd in L1. split; auto. intros i Hi. rewrite L2 by (rewrite length_upd; auto). destruct (Nat.eq_dec a i) as [->|Ne].
      * rewrite nth_upd_eq by auto. cbn. tauto.
      * rewrite nth_upd_neq by auto. cbn. tauto.
    + unfold wr in E. destruct (Nat.ltb_spec a (length l)); [lia|]. discriminate.
Qed.
Lemma new_inv : forall (T : Type) (ACC : accum T) (zero : T) (g : gmv T) para s0, astar_new T ACC zero g para = Ret s0 -> exists P tr opt,
  s0 = mkAStar P [mkANode [] zero] tr opt [] (a_ineutral ACC) 0 /\
  p_maxHeapSize P = p_maxHeapSize para /\ p_numberOfOpt P = p_numberOfOpt para /\ p_objectiveBound P = p_objectiveBound para /\
  (p_nodeOrder para = [] -> p_nodeOrder P = defaultOrder T g) /\ (p_nodeOrder para <> [] -> p_nodeOrder P = p_nodeOrder para) /\
  length tr = length (v_factors g) /\ (forall i, i < length (v_factors g) -> (nth i tr false = true <-> In i (p_treeFactorIds P))) /\
  mapM (optimize T ACC g) (v_factors g) = Ret opt /\
  (p_treeFactorIds para = [] -> defaultTree T g (p_nodeOrder P) = Ret (p_treeFactorIds P)).
Proof.
  intros T ACC zero g para s0 E. unfold astar_new in E. destruct (negb _) eqn:E0; [discriminate|].
  match type of E with (tree <- ?t ;; _) = _ => destruct t as [tree| | |] eqn:Et; try discriminate E end. cbn [bind] in E.
  destruct (mapM (optimize T ACC g) (v_factors g)) as [opt| | |] eqn:Eo; try discriminate. cbn [bind] in E. destruct (mapM (rd (v_factors g)) tree) as [vs| | |] eqn:Ev; try discriminate. cbn [bind] in E.
  match type of E with (if ?b then _ else _) = _ => destruct b; [discriminate|] end.
  destruct (foldM (fun l i => wr l i true) tree (repeat false (length (v_factors g)))) as [tr| | |] eqn:Er; try discriminate. cbn [bind] in E. injection E as <-.
  destruct (mark_iff _ _ _ Er) as [M1 M2]. rewrite repeat_length in M1, M2. eexists _, tr, opt. split; [reflexivity|]. cbn. do 3 (split; [reflexivity|]).
  split; [intros ->; reflexivity|]. split; [intros H; destruct (p_nodeOrder para); [congruence|reflexivity]|]. split; auto. split.
  - intros i Hi. rewrite M2 by auto. rewrite nth_repeat. intuition discriminate.
  - split; auto. intros H. rewrite H in Et. exact Et.
Qed.
Lemma star_acyclic : forall (T : Type) (g : gmv T) order ids, wf_gmv g -> simple_pairs g -> defaultTree T g order = Ret ids -> (forall a b F, In ([a; b], F) (v_factors g) -> order <> []) -> tree_acyclic g ids.
Proof.
  intros T g order ids WF SP E HO c C. rewrite default_tree in E by auto. injection E as E.
  destruct (Forall_Exists_dec (fun x => match x with NF f => In f ids | NV _ => True end) (fun x => match x as x0 return {match x0 with NF f => In f ids | NV _ => True end} + {~ match x0 with NF f => In f ids | NV _ => True end} with NF f => in_dec Nat.eq_dec f ids | NV _ => left I end) c) as [A|A].
  2:{ apply Exists_exists in A as ([v|f] & Hx & Hn); [tauto|]. eauto. }
  exfalso. set (z := last order 0) in *. rewrite Forall_forall in A.
  assert (STAR : forall f, In (NF f) c -> exists a b F, nth_error (v_factors g) f = Some ([a; b], F) /\ (a = z \/ b = z) /\ a < b).
  { intros f Hf. specialize (A _ Hf). cbn in A. rewrite <- E in A. apply filter_In in A as [_ A]. destruct (nth_error (v_factors g) f) as [[vis F]|] eqn:Ef; [|discriminate]. destruct vis as [|a [|b [|? ?]]]; try discriminate.
    exists a, b, F. split; auto. apply orb_true_iff in A. rewrite !Nat.eqb_eq in A. split; auto. destruct WF as [W _]. rewrite Forall_forall in W. destruct (W _ (nth_error_In _ _ Ef)) as [S1 _]. cbn in S1. inversion S1 as [|? ? _ Q]. inversion Q. auto. }
  assert (SYM : forall a b, FactorGraphSpec.edge (fgraph_of T g) a b -> FactorGraphSpec.edge (fgraph_of T g) b a) by (intros [a|a] [b|b]; cbn; auto).
  assert (INC : forall f a b F v, nth_error (v_factors g) f = Some ([a; b], F) -> incident (fgraph_of T g) f v -> v = a \/ v = b).
  { intros f a b F v Ef (vs & E1 & Hv). cbn in E1. rewrite nth_error_map, Ef in E1. cbn in E1. injection E1 as <-. cbn in Hv. intuition. }
  (* some variable of the cycle is not the last one: it has two factors in the cycle, both with the last variable *)
  assert (V : exists v, In (NV v) c /\ v <> z).
  { pose proof C as (_ & L3 & _). destruct c as [|x c']; [cbn in L3; lia|]. assert (FX : exists f, In (NF f) (x :: c')).
    { destruct x as [v|f]; [|exists f; left; auto]. destruct (cycle_two _ _ _ _ SYM C (or_introl eq_refl)) as (a & _ & _ & Ia & _ & _ & _ & E1 & _). destruct a as [a|a]; [destruct E1|eauto]. }
    destruct FX as (f & Hf). destruct (cycle_two _ _ _ _ SYM C Hf) as (a & b & Ne & Ia & Ib & _ & _ & E1 & E2). destruct a as [a|a]; [|destruct E1]. destruct b as [b|b]; [|destruct E2].
    destruct (Nat.eq_dec a z) as [->|Na]; [|eauto]. exists b. split; [auto|congruence]. }
  destruct V as (v & Hv & Nv). destruct (cycle_two _ _ _ _ SYM C Hv) as (a & b & Ne & Ia & Ib & _ & _ & E1 & E2). destruct a as [a|a]; [destruct E1|]. destruct b as [b|b]; [destruct E2|]. cbn in E1, E2.
  destruct (STAR a Ia) as (a1 & a2 & F & Ea & Ca & La). destruct (STAR b Ib) as (b1 & b2 & G & Eb & Cb & Lb).
  pose proof (INC _ _ _ _ _ Ea E1) as Da. pose proof (INC _ _ _ _ _ Eb E2) as Db. apply Ne. f_equal.
  assert (X : [a1; a2] = [b1; b2]) by (destruct Ca, Cb, Da, Db; subst; try lia; f_equal; try lia; f_equal; lia).
  injection X as -> ->. eapply SP; eauto.
Qed.
Lemma nl_firstn : forall (T : Type) (g : gmv T) (P : aparam T) p v, Permutation (p_nodeOrder P) (seq 0 (length (v_labels g))) -> length p < length (v_labels g) -> v < length (v_labels g) ->
  free T P p v = negb (existsb (Nat.eqb v) (firstn (length p) (p_nodeOrder P))).
Proof.
  intros T g P p v OR LP Hv. destruct (order_has T g P OR v Hv) as (k & Hk & <-). unfold free. destruct (lt_dec k (length p)) as [Hkp|Hkp].
  - rewrite (nl_known T g P (repeat false (length (v_factors g))) OR (repeat_length _ _) p LP k Hkp).
    assert (X : existsb (Nat.eqb (nth k (p_nodeOrder P) 0)) (firstn (length p) (p_nodeOrder P)) = true); [|rewrite X; auto].
    apply existsb_exists. exists (nth k (p_nodeOrder P) 0). split; [|apply Nat.eqb_refl]. rewrite <- (nth_firstn_lt _ _ (length p)) by auto. apply nth_In. rewrite firstn_length, (order_len T g P OR). lia.
  - rewrite (nl_unknown T g P (repeat false (length (v_factors g))) OR (repeat_length _ _) p LP k) by (auto; lia).
    assert (X : existsb (Nat.eqb (nth k (p_nodeOrder P) 0)) (firstn (length p) (p_nodeOrder P)) = false); [|rewrite X; auto].
    apply not_true_is_false. intros X. apply existsb_exists in X as (w & Hw & E). apply Nat.eqb_eq in E. subst w. apply (In_nth _ _ 0) in Hw as (j & Hj & E). rewrite firstn_length, (order_len T g P OR) in Hj. rewrite nth_firstn_lt in E by lia.
    pose proof (proj1 (NoDup_nth (p_nodeOrder P) 0) (order_nodup T g P OR) j k) as Q. rewrite (order_len T g P OR) in Q. specialize (Q ltac:(lia) Hk E). lia.
Qed.
Section StandardSearch.
Variable T : Type.
Variable ok : T -> Prop.
Variable OP : oper T.
Variable ACC : accum T.
Variable zero : T.
Variable g : gmv T.
Variable solve : gmv T -> nat -> nat -> outcome (list nat).
Variable pick : nat -> list (anode T) -> nat.
Variable stop : nat -> bool.
Let n := length (v_labels g).
Variable para : aparam T.
Variable s0 : astar T.
Hypothesis SL : search_laws ok OP ACC.
Hypothesis PK : good_pick ok ACC pick.
Hypothesis ZK : ok zero.
Hypothesis WF : wf_gmv g.
Hypothesis OK : ok_gmv ok g.
Hypothesis N0 : 0 < n.
Hypothesis HO : p_nodeOrder para = [] \/ Permutation (p_nodeOrder para) (seq 0 n).
Hypothesis NW : astar_new T ACC zero g para = Ret s0.
Hypothesis HH : p_heuristic (as_param s0) = STANDARDHEURISTIC.
Hypothesis TA : tree_acyclic g (p_treeFactorIds (as_param s0)).
Hypothesis FL : first_late g (p_nodeOrder (as_param s0)) (p_treeFactorIds (as_param s0)).
Hypothesis SV : tree_solver ok OP ACC g solve.
Hypothesis HS : 100 * size_of (v_labels g) <= 99 * p_maxHeapSize para.
Lemma standard_search : exists F,
  (forall fuel, F <= fuel -> exists s t, astar_infer T OP ACC zero g solve pick stop fuel s0 = Ret (s, t) /\ search_result OP ACC g (total OP g) para stop [] s t) /\
  ((forall c, stop c = false) -> (forall x, labeling g x -> a_bop ACC (p_objectiveBound para) (total OP g x) = false) ->
   forall fuel k, F <= fuel -> exists xs, infers (astar_infer T OP ACC zero g solve pick stop fuel) k s0 = Ret xs /\
     best_first OP ACC g xs /\ length xs = Nat.min (k * p_numberOfOpt para) (size_of (v_labels g))).
Proof.
  destruct (new_inv T ACC zero g para s0 NW) as (P & tr & opt & -> & P1 & P2 & P3 & P4 & P5 & TL & TR & OE & _). cbn [as_param] in *.
  assert (OR : Permutation (p_nodeOrder P) (seq 0 n)).
  { destruct HO as [E|E]; [rewrite P4 by auto; apply defaultOrder_perm|]. rewrite P5; auto. intros X. rewrite X in E. apply Permutation_length in E. rewrite seq_length in E. cbn in E. lia. }
  assert (RK : forall y, labeling g y -> ok (total OP g y)) by (intros; apply (total_ok T ok OP ACC SL g OK); auto).
  assert (CYC : forall c, cycle (FactorGraphSpec.edge (fgraph_of T g)) c -> exists f, In (NF f) c /\ nth f tr false = false).
  { intros c C. destruct (TA c C) as (f & Hf & Nf). exists f. split; auto. apply not_true_is_false. intros X. apply Nf. apply TR; auto. rewrite <- TL. destruct (lt_dec f (length tr)); auto. rewrite nth_overflow in X by lia. discriminate. }
  assert (HE : forall fuel s p, 0 <= fuel -> static T P tr opt s -> valid T g P p -> length p < n ->
    exists b, heuristic_of T OP ACC zero g solve fuel s p = Ret b /\ sound_bound T ok ACC g P (total OP g) p b).
  { intros fuel s p _ ST VP LP. unfold heuristic_of. rewrite (proj1 ST), HH.
    apply (standard_ok T ok OP ACC zero g solve P tr opt p SL WF OK OR TL OE VP LP); auto.
    intros i v vis Hi Ei Ti Fv. assert (Hn : ~ In i (p_treeFactorIds P)) by (intros X; apply TR in X; auto; congruence).
    assert (En : nth_error (v_factors g) i = Some (nth i (v_factors g) ([], fun _ => zero))) by (apply nth_error_nth'; auto).
    destruct (nth i (v_factors g) ([], fun _ => zero)) as [vs F] eqn:Ef. cbn in Ei. subst vs. pose proof WF as [W _]. rewrite Forall_forall in W. destruct (W _ (nth_error_In _ _ En)) as [_ W2]. cbn in W2. inversion W2 as [|? ? Hv W3]; subst.
    rewrite (nl_firstn T g P p v OR LP Hv) in Fv. apply negb_false_iff, existsb_exists in Fv as (w & Hw & Ew). apply Nat.eqb_eq in Ew. subst w.
    pose proof (FL i v vis F (length p) En Hn Hw) as X. unfold kept. rewrite Forall_forall in W3.
    rewrite (filter_ext_In _ (free T P p) (fun u => negb (existsb (Nat.eqb u) (firstn (length p) (p_nodeOrder P)))) vis); auto. intros u Hu. apply (nl_firstn T g P p u OR LP). auto. }
  assert (HS' : 100 * size_of (v_labels g) <= 99 * p_maxHeapSize P) by (rewrite P1; auto).
  pose proof (start_ok T ok OP ACC zero g P tr opt (total OP g) 0 SL WF RK eq_refl) as ST.
  assert (RT : forall x y, labeling g x -> labeling g y -> a_bop ACC (total OP g y) (total OP g x) = false -> a_bop ACC (total OP g y) (total OP g x) = false) by auto.
  exists (enough T g P 0). split.
  - intros fuel Hf. destruct (infer_ok T ok OP ACC zero g solve pick stop P tr opt (total OP g) 0 WF OR SL PK ZK N0 HS' RK HE RT fuel _ [] Hf ST) as (s & t & E1 & E2 & _).
    exists s, t. split; auto. eapply result_para; eauto.
  - intros NS NB fuel k Hf. destruct (infers_ok T ok OP ACC zero g solve pick stop P tr opt (total OP g) 0 WF OR SL PK ZK N0 HS' RK HE RT NS) with (fuel := fuel) (k := k) (s := mkAStar P [mkANode [] zero] tr opt [] (a_ineutral ACC) 0) (F := @nil (list nat)) as (xs & E1 & E2 & E3); auto.
    { rewrite P3. auto. }
    exists xs. split; auto. split; auto. cbn in E3. rewrite P2, Nat.sub_0_r in E3. auto.
Qed.
End StandardSearch.
