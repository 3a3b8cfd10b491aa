(** Value tables: reading, writing, sweeps; unary and binary operations. *)
From Coq Require Import Sorted.
From Verif Require Import Base ShapeSpec ShapeProofs IndexingModel IndexingProofs UtilModel FunctionBaseProofs MarrayProofs
  FactorOpsModel FactorOpsSpec FactorOpsProofs.

Lemma shape_size_spec : forall s, shape_size s = size_of s.
Proof. intros. unfold shape_size. rewrite fold_left_mul. lia. Qed.

Lemma t_offset_spec : forall sh c rest stride, length c = length sh ->
  t_offset sh (c ++ rest) stride = Ret (stride * index_of sh c).
Proof.
  induction sh as [|s sh IH]; intros [|x c] rest stride H; try discriminate; cbn [t_offset index_of app].
  - f_equal. lia.
  - rewrite IH by (cbn in H; lia). cbn [bind]. f_equal. lia.
Qed.

Lemma map_nth_seq : forall (A : Type) (l : list A) d, map (fun k => nth k l d) (seq 0 (length l)) = l.
Proof.
  intros A l d. induction l as [|a l IH]; auto. cbn [length seq map nth]. f_equal.
  rewrite <- seq_shift, map_map. exact IH.
Qed.

Section Tables.
Variable V : Type.
Implicit Types t : table V.

Lemma t_read_ok : forall t c rest v, length c = length (t_shape t) ->
  nth_error (t_data t) (index_of (t_shape t) c) = Some v -> t_read V t (c ++ rest) = Ret v.
Proof.
  intros t c rest v HL H. unfold t_read. rewrite t_offset_spec by auto. cbn [bind]. rewrite Nat.mul_1_l.
  unfold rd. rewrite H. auto.
Qed.
Lemma t_write_ok : forall t c rest v, length c = length (t_shape t) ->
  index_of (t_shape t) c < length (t_data t) ->
  t_write V t (c ++ rest) v = Ret (mkTable (t_shape t) (upd (t_data t) (index_of (t_shape t) c) v)).
Proof.
  intros t c rest v HL H. unfold t_write. rewrite t_offset_spec by auto. cbn [bind]. rewrite Nat.mul_1_l, wr_Ret by auto. auto.
Qed.

(** ** Sweeps that write entry after entry *)
Definition partial_data (g : nat -> V) (k : nat) (d : list V) : list V := map g (seq 0 k) ++ skipn k d.

Lemma partial_data_length : forall g k d, k <= length d -> length (partial_data g k d) = length d.
Proof. intros. unfold partial_data. rewrite app_length, map_length, seq_length, skipn_length. lia. Qed.
Lemma partial_data_nth : forall g k d, k < length d -> nth_error (partial_data g k d) k = nth_error d k.
Proof.
  intros. unfold partial_data. rewrite nth_error_app2 by (rewrite map_length, seq_length; auto).
  rewrite map_length, seq_length, Nat.sub_diag. rewrite <- (firstn_skipn k d) at 2.
  rewrite nth_error_app2; rewrite firstn_length_le by lia; auto. rewrite Nat.sub_diag. auto.
Qed.
Lemma partial_data_step : forall g k d, k < length d -> upd (partial_data g k d) k (g k) = partial_data g (S k) d.
Proof.
  intros. unfold partial_data. destruct (skipn k d) as [|x r] eqn:E.
  { apply (f_equal (@length V)) in E. rewrite skipn_length in E. cbn in E. lia. }
  rewrite upd_app_mid by (rewrite map_length, seq_length; auto). rewrite seq_S, map_app, <- app_assoc. cbn [map app Nat.add].
  f_equal. f_equal. destruct (firstn_S_skipn _ _ _ _ _ E) as [_ <-]. auto.
Qed.
Lemma partial_data_all : forall g d, partial_data g (length d) d = map g (seq 0 (length d)).
Proof. intros. unfold partial_data. rewrite skipn_all, app_nil_r. auto. Qed.

(** W is the state of a walker; R k w says that it is at the k-th tuple. *)
Lemma table_loop : forall (W : Type) (next : W -> outcome W) (body : table V -> W -> outcome (table V)) (R : nat -> W -> Prop)
    (g : nat -> V) sh d (w0 : W),
  R 0 w0 ->
  (forall k w, R k w -> k < length d -> exists w', next w = Ret w' /\ (S k < length d -> R (S k) w')) ->
  (forall k w, R k w -> k < length d ->
     body (mkTable sh (partial_data g k d)) w = Ret (mkTable sh (upd (partial_data g k d) k (g k)))) ->
  exists w, foldM (fun (st : table V * W) (_ : nat) =>
      t <- body (fst st) (snd st) ;; w <- next (snd st) ;; Ret (t, w)) (seq 0 (length d)) (mkTable sh d, w0)
    = Ret (mkTable sh (map g (seq 0 (length d))), w).
Proof.
  intros W next body R g sh d w0 R0 HN HB.
  assert (G : forall k, k <= length d -> exists w, foldM (fun (st : table V * W) (_ : nat) =>
      t <- body (fst st) (snd st) ;; w <- next (snd st) ;; Ret (t, w)) (seq 0 k) (mkTable sh d, w0)
      = Ret (mkTable sh (partial_data g k d), w) /\ (k < length d -> R k w)).
  { induction k as [|k IH]; intros Hk. { exists w0. split; auto. }
    destruct IH as (w & E & HR); [lia|]. rewrite foldM_seq_S, E. cbn [bind fst snd]. rewrite (HB k w) by (auto; apply HR; lia).
    cbn [bind]. destruct (HN k w) as (w' & E' & R'); [apply HR; lia|lia|]. rewrite E'. cbn [bind].
    exists w'. rewrite partial_data_step by lia. split; auto. }
  destruct (G (length d)) as (w & E & _); auto. exists w. rewrite E, partial_data_all. auto.
Qed.

Lemma single_loop : forall sh d (body : table V -> list nat -> outcome (table V)) g, positive sh -> length d = size_of sh ->
  (forall k, k < length d -> body (mkTable sh (partial_data g k d)) (coord_of sh k) = Ret (mkTable sh (upd (partial_data g k d) k (g k)))) ->
  single_sweep sh (length d) body (mkTable sh d) = Ret (mkTable sh (map g (seq 0 (length d)))).
Proof.
  intros sh d body g HP HL HB. unfold single_sweep.
  destruct (table_loop (list nat) (fun w => sw_next sh w (length sh)) body (fun k w => w = coord_of sh k) g sh d (sw_init (length sh))) as (w & E).
  - unfold sw_init. rewrite coord_of_0; auto.
  - intros k w -> Hk. destruct (sw_next_total sh (coord_of sh k)) as [c' E]. { apply coord_of_length. }
    exists c'. split; auto. intros HS. rewrite sw_next_spec in E by (auto; lia). congruence.
  - intros k w -> Hk. apply HB. auto.
  - rewrite E. auto.
Qed.

Lemma write_partial : forall sh d g k v rest, positive sh -> length d = size_of sh -> k < length d ->
  t_write V (mkTable sh (partial_data g k d)) (coord_of sh k ++ rest) v = Ret (mkTable sh (upd (partial_data g k d) k v)).
Proof.
  intros sh d g k v rest HP HL Hk.
  assert (E : index_of sh (coord_of sh k) = k) by (apply index_of_coord; auto; lia).
  rewrite t_write_ok; cbn [t_shape t_data]; rewrite ?E; auto.
  - apply coord_of_length.
  - rewrite partial_data_length; lia.
Qed.
Lemma read_partial : forall sh d g k rest v, positive sh -> length d = size_of sh -> k < length d -> nth_error d k = Some v ->
  t_read V (mkTable sh (partial_data g k d)) (coord_of sh k ++ rest) = Ret v.
Proof.
  intros sh d g k rest v HP HL Hk Hv. apply t_read_ok; cbn [t_shape t_data].
  - apply coord_of_length.
  - rewrite index_of_coord by (auto; lia). rewrite partial_data_nth; auto.
Qed.

(** ** Factors *)
Lemma represents_ext : forall nl f vars F x y, represents V nl f vars F -> legal nl vars x -> (forall v, In v vars -> x v = y v) -> F x = F y.
Proof.
  intros nl f vars F x y (_ & _ & _ & H) LX E. assert (LY : legal nl vars y). { intros v Hv. rewrite <- E; auto. }
  pose proof (H x [] LX) as H1. pose proof (H y [] LY) as H2. rewrite (map_ext_in x y) in H1 by auto. congruence.
Qed.
Lemma represents_lab : forall nl f vars F k rest, represents V nl f vars F ->
  f_read f (coord_of (map nl vars) k ++ rest) = Ret (F (lab nl vars k)).
Proof.
  intros nl f vars F k rest (S & _ & P & H). assert (N : NoDup vars) by (apply sorted_NoDup; auto).
  rewrite <- map_lab by auto. apply H. apply lab_legal; auto.
Qed.

Lemma build_factor : forall nl vars (G : (nat -> nat) -> V), StronglySorted lt vars -> (forall v, In v vars -> 0 < nl v) ->
  (forall x y, legal nl vars x -> (forall v, In v vars -> x v = y v) -> G x = G y) ->
  factor_is V nl (mkTable (map nl vars) (map (fun k => G (lab nl vars k)) (seq 0 (size_of (map nl vars))))) vars G.
Proof.
  intros nl vars G HS HP HG. assert (N : NoDup vars) by (apply sorted_NoDup; auto). split.
  2: { cbn [t_data]. rewrite map_length, seq_length. auto. }
  split; auto. split; auto. split; auto. intros x rest HL. cbn [t_fn f_read].
  pose proof (map_in_shape nl vars x HL) as HI. pose proof (index_of_lt _ _ HI) as Hlt.
  apply t_read_ok; cbn [t_shape t_data]; [rewrite !map_length; auto|].
  rewrite nth_error_map, (nth_error_nth' _ 0) by (rewrite seq_length; auto).
  rewrite seq_nth by auto. cbn [option_map Nat.add]. f_equal.
  set (k := index_of (map nl vars) (map x vars)) in *.
  symmetry. apply HG; auto. apply map_eq_in. rewrite map_lab by auto. unfold k. rewrite coord_of_index; auto.
Qed.

Lemma factor_entry : forall nl t vars F k, factor_is V nl t vars F -> k < size_of (map nl vars) ->
  nth_error (t_data t) k = Some (F (lab nl vars k)).
Proof.
  intros nl t vars F k [R HL] Hk. pose proof (represents_lab nl _ vars F k [] R) as E.
  destruct R as (S & Sh & P & _). cbn [t_fn f_shape] in Sh. pose proof (map_positive nl vars P) as HP.
  cbn [t_fn f_read] in E. unfold t_read in E. rewrite Sh, t_offset_spec in E by (apply coord_of_length).
  rewrite index_of_coord in E by auto. cbn [bind] in E. rewrite Nat.mul_1_l in E. unfold rd in E.
  destruct (nth_error (t_data t) k); congruence.
Qed.
Lemma factor_shape : forall nl t vars F, factor_is V nl t vars F -> t_shape t = map nl vars.
Proof. intros nl t vars F [(_ & H & _) _]. exact H. Qed.

Lemma resize_fresh : forall (v0 : V) sh value, sh <> [] -> t_resize V v0 (t_assign V) sh value = Ret (mkTable sh (repeat value (size_of sh))).
Proof.
  intros v0 sh value H. destruct sh as [|s sh]; [contradiction|]. unfold t_resize. rewrite shape_size_spec. auto.
Qed.

(** ** Unary operations *)
Variable v0 : V.
Lemma unary_spec : forall nl f vars F op, represents V nl f vars F -> vars <> [] ->
  exists t, UnaryOperation V v0 op f = Ret t /\ factor_is V nl t vars (fun x => op (F x)).
Proof.
  intros nl f vars F op R HN. pose proof R as (S & Sh & P & H). pose proof (map_positive nl vars P) as HP.
  unfold UnaryOperation, f_dim. rewrite Sh. destruct (Nat.eqb_spec (length (map nl vars)) 0) as [E|E].
  { rewrite map_length in E. destruct vars; [contradiction|discriminate]. }
  cbn [negb]. rewrite resize_fresh by (destruct vars; [contradiction|discriminate]). cbn [bind].
  set (d := repeat v0 (size_of (map nl vars))). assert (LD : length d = size_of (map nl vars)) by (apply repeat_length).
  rewrite shape_size_spec, <- LD.
  rewrite (single_loop (map nl vars) d _ (fun k => op (F (lab nl vars k)))); auto.
  - rewrite LD. eexists. split; [reflexivity|]. apply (build_factor nl vars (fun x => op (F x))); auto. intros x y HX HE. f_equal. eapply represents_ext; eauto.
  - intros k Hk. pose proof (represents_lab nl f vars F k [] R) as E1. rewrite app_nil_r in E1. rewrite E1. cbn [bind].
    pose proof (write_partial (map nl vars) d (fun k => op (F (lab nl vars k))) k (op (F (lab nl vars k))) [] HP LD Hk) as E2.
    rewrite app_nil_r in E2. exact E2.
Qed.

Lemma unary_inplace_spec : forall nl t vars F op, factor_is V nl t vars F ->
  exists t', UnaryOperationInplace V op t = Ret t' /\ factor_is V nl t' vars (fun x => op (F x)).
Proof.
  intros nl t vars F op HF. pose proof HF as [R LD]. pose proof R as (S & Sh & P & H). pose proof (map_positive nl vars P) as HP.
  cbn [t_fn f_shape] in Sh. unfold UnaryOperationInplace. rewrite Sh. destruct (Nat.eqb_spec (length (map nl vars)) 0) as [E|E].
  - rewrite map_length in E. destruct vars; [|discriminate]. cbn [negb].
    pose proof (H (fun _ => 0) [0]) as E1. cbn [map app] in E1. cbn [t_fn f_read] in E1. rewrite E1 by (intros v []). cbn [bind].
    pose proof (t_write_ok t [] [0] (op (F (fun _ => 0)))) as E2. cbn [app] in E2. rewrite E2.
    + eexists. split; [reflexivity|]. rewrite Sh. cbn [map index_of].
      destruct (t_data t) as [|a [|b l]] eqn:ED; cbn in LD; try discriminate. cbn [upd].
      apply (build_factor nl [] (fun x => op (F x))); auto. intros x y HX HE. f_equal. eapply represents_ext; eauto.
    + rewrite Sh. auto.
    + rewrite Sh. cbn. rewrite LD. cbn. lia.
  - cbn [negb]. destruct t as [sh d]. cbn [t_shape t_data] in *. subst sh.
    rewrite (single_loop (map nl vars) d _ (fun k => op (F (lab nl vars k)))); auto.
    + rewrite LD. eexists. split; [reflexivity|]. apply (build_factor nl vars (fun x => op (F x))); auto. intros x y HX HE. f_equal. eapply represents_ext; eauto.
    + intros k Hk. pose proof (factor_entry nl _ vars F k HF) as E1. cbn [t_data] in E1.
      pose proof (read_partial (map nl vars) d (fun k => op (F (lab nl vars k))) k [] _ HP LD Hk (E1 ltac:(lia))) as E2.
      rewrite app_nil_r in E2. rewrite E2. cbn [bind].
      pose proof (write_partial (map nl vars) d (fun k => op (F (lab nl vars k))) k (op (F (lab nl vars k))) [] HP LD Hk) as E3.
      rewrite app_nil_r in E3. exact E3.
Qed.

(** ** Binary operations *)
Lemma incl_of_iff : forall (va vb vic : list nat), (forall u, In u vic <-> In u va \/ In u vb) -> incl va vic /\ incl vb vic.
Proof. intros. split; intros u Hu; apply H; auto. Qed.

Lemma tsw_next_ok : forall nl vic va vb mA mB k cA cB, (forall v, In v vic -> 0 < nl v) -> StronglySorted lt vic -> StronglySorted lt va -> StronglySorted lt vb ->
  match_ok vic va mA -> match_ok vic vb mB ->
  projection vic va (coord_of (map nl vic) k) cA -> projection vic vb (coord_of (map nl vic) k) cB ->
  exists cA' cB', tsw_next (length (map nl vic)) (map nl vic) mA mB (coord_of (map nl vic) k, cA, cB)
    = Ret (coord_of (map nl vic) (S k), cA', cB') /\
    projection vic va (coord_of (map nl vic) (S k)) cA' /\ projection vic vb (coord_of (map nl vic) (S k)) cB'.
Proof.
  intros nl vic va vb mA mB k cA cB P S SA SB MA MB PA PB. unfold tsw_next.
  destruct (tsw_loop_spec vic va vb mA mB (map nl vic) [] [] (coord_of (map nl vic) k) cA cB) as [cA' [cB' [E' [P' Q']]]]; auto.
  { apply coord_of_length. } { rewrite map_length. auto. }
  cbn [app length] in E', P', Q'. rewrite incr_coord in E', P', Q' by (apply map_positive; auto). exists cA', cB'. split; auto.
Qed.

Lemma binary_spec : forall nl a b va vb A B op, represents V nl a va A -> represents V nl b vb B -> va <> [] \/ vb <> [] ->
  exists c vic, BinaryOperation V v0 op a b va vb = Ret (c, vic) /\ factor_is V nl c vic (fun x => op (A x) (B x)) /\
    forall u, In u vic <-> In u va \/ In u vb.
Proof.
  intros nl a b va vb A B op RA RB HN. pose proof RA as (SA & ShA & PA & HA). pose proof RB as (SB & ShB & PB & HB).
  destruct (compute_spec nl va vb SA SB) as (vic & E & SC & IC). destruct (incl_of_iff _ _ _ IC) as [IA IB].
  assert (PC : forall v, In v vic -> 0 < nl v). { intros v Hv. apply IC in Hv. destruct Hv; auto. }
  assert (NC : vic <> []).
  { destruct HN as [HN|HN]; [destruct va as [|u va]|destruct vb as [|u vb]]; try contradiction; intros ->;
      [apply (IA u); left; auto|apply (IB u); left; auto]. }
  assert (NDC : NoDup vic) by (apply sorted_NoDup; auto).
  pose proof (map_positive nl vic PC) as HP. set (sh := map nl vic) in *.
  set (d := repeat v0 (size_of sh)). assert (LD : length d = size_of sh) by (apply repeat_length).
  set (g := fun k => op (A (lab nl vic k)) (B (lab nl vic k))).
  assert (HG : factor_is V nl (mkTable sh (map g (seq 0 (length d)))) vic (fun x => op (A x) (B x))).
  { rewrite LD. apply (build_factor nl vic (fun x => op (A x) (B x))); auto. intros x y HX HE.
    rewrite (represents_ext nl a va A x y), (represents_ext nl b vb B x y); auto; eapply legal_incl; eauto. }
  exists (mkTable sh (map g (seq 0 (length d)))), vic. split; auto.
  unfold BinaryOperation. rewrite ShA, ShB, E. cbn [bind]. fold sh. unfold f_dim. rewrite ShA, ShB.
  rewrite resize_fresh by (unfold sh; destruct vic; [contradiction|discriminate]). cbn [bind t_data]. fold d.
  rewrite !map_length.
  assert (W : forall k, k < length d -> t_write V (mkTable sh (partial_data g k d)) (coord_of sh k) (g k) = Ret (mkTable sh (upd (partial_data g k d) k (g k)))).
  { intros k Hk. pose proof (write_partial sh d g k (g k) [] HP LD Hk) as E1. rewrite app_nil_r in E1. auto. }
  assert (LL : forall k, legal nl vic (lab nl vic k)) by (intros; apply lab_legal; auto).
  destruct va as [|a1 va].
  - destruct vb as [|b1 vb]; [destruct HN; contradiction|]. cbn [length Nat.eqb negb andb].
    assert (Evic : vic = b1 :: vb).
    { unfold computeViandShape in E. rewrite <- (map_length nl (b1 :: vb)), mapM_rd_all in E. cbn [bind] in E. congruence. }
    rewrite (single_loop sh d _ g); auto. intros k Hk.
    pose proof (HA (lab nl vic k) [0]) as E1. cbn [map app] in E1. rewrite E1 by (intros v []). cbn [bind].
    pose proof (HB (lab nl vic k) []) as E2. rewrite app_nil_r, <- Evic, map_lab in E2 by auto. fold sh in E2.
    rewrite E2 by (apply LL). cbn [bind]. apply W; auto.
  - destruct vb as [|b1 vb]; cbn [length Nat.eqb negb andb].
    + assert (Evic : vic = a1 :: va).
      { unfold computeViandShape in E. rewrite <- (map_length nl (a1 :: va)), mapM_rd_all in E. cbn [bind] in E. congruence. }
      rewrite (single_loop sh d _ g); auto. intros k Hk.
      pose proof (HB (lab nl vic k) [0]) as E1. cbn [map app] in E1.
      pose proof (HA (lab nl vic k) []) as E2. rewrite app_nil_r, <- Evic, map_lab in E2 by auto. fold sh in E2.
      rewrite E2 by (apply LL). cbn [bind]. rewrite E1 by (intros v []). cbn [bind]. apply W; auto.
    + unfold triple_sweep. cbn [t_shape t_data].
      assert (LS : length sh = length vic) by (unfold sh; apply map_length).
      destruct (tsw_match_spec vic (a1 :: va) SC SA IA) as [mA [EA MA]].
      destruct (tsw_match_spec vic (b1 :: vb) SC SB IB) as [mB [EB MB]].
      rewrite LS, EA, bind_Ret, EB, bind_Ret, <- LS.
      destruct (table_loop _ (tsw_next (length sh) sh mA mB)
         (fun c w => let '(cAB, cA, cB) := w in x <- f_read a cA ;; y <- f_read b cB ;; t_write V c cAB (op x y))
         (fun k w => exists cA cB, w = (coord_of sh k, cA, cB) /\ projection vic (a1 :: va) (coord_of sh k) cA /\ projection vic (b1 :: vb) (coord_of sh k) cB)
         g sh d (repeat 0 (length sh), repeat 0 (length (a1 :: va)), repeat 0 (length (b1 :: vb)))) as (w & EL).
      * eexists _, _. split; [rewrite coord_of_0 by auto; reflexivity|].
        split; (split; [apply repeat_length|]; intros; rewrite coord_of_0 by auto; rewrite !nth_repeat; auto).
      * intros k w (cA & cB & -> & QA & QB) Hk.
        destruct (tsw_next_ok nl vic (a1 :: va) (b1 :: vb) mA mB k cA cB) as (cA' & cB' & E' & QA' & QB'); auto.
        fold sh in E', QA', QB'. eexists. split; [exact E'|]. intros _. eauto.
      * intros k w (cA & cB & -> & QA & QB) Hk. unfold sh in QA, QB. rewrite <- map_lab in QA, QB by auto.
        apply projection_labels in QA; auto. apply projection_labels in QB; auto. subst cA cB.
        pose proof (HA (lab nl vic k) []) as E1. pose proof (HB (lab nl vic k) []) as E2. rewrite app_nil_r in E1, E2.
        rewrite E1 by (eapply legal_incl; [exact IA|apply LL]). cbn [bind].
        rewrite E2 by (eapply legal_incl; [exact IB|apply LL]). cbn [bind]. apply W; auto.
      * rewrite EL. auto.
Qed.
End Tables.
