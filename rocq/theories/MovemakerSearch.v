(** Proofs about Movemaker: the search for an optimal move. *)
From Verif Require Import Base Values GmView GmViewSpec ShapeSpec ShapeProofs GmProofs GmViewProofs MovemakerModel MovemakerSpec MovemakerProofs.
From Coq Require Import Sorted Permutation.
#[local] Arguments nth_error : simpl never.

Lemma relabel_init : forall vars dest x, length dest = length vars -> Forall (fun v => v < length x) vars -> NoDup vars ->
  at_vars (relabel x vars dest) vars = dest.
Proof. intros. apply relabel_at; auto. Qed.

Lemma opts_shape_aux : forall l vars opts, Forall2 (fun v o => 0 < length o /\ forall b, In b o -> b < nth v l 0) vars opts ->
  forall c, Forall2 (fun c o => In c o) c opts -> in_shape (map (fun v => nth v l 0) vars) c.
Proof.
  intros l vars opts HV. induction HV as [|v o vs os [_ H] H' IH]; intros c Hc; inversion Hc as [|b o' c' os' Hb Hc']; subst; cbn [map]; constructor; [auto|].
  apply IH. auto.
Qed.

Section S.
Variable T : Type.
Variable OP : oper T.
Variable mult : bool.
Variable recompute : T -> bool.
Variable ACC : accum T.
Variable fin : T -> Prop.
Hypothesis OL : op_laws fin OP.
Hypothesis AL : acc_laws fin OP ACC.
Variable g : gmv T.
Hypothesis W : wf_gmv g.
Hypothesis FG : fin_gmv fin g.

Notation better := (a_bop ACC).

Section Search.
Variable vars : list nat.
Variable opts : list (list nat).
Variable x : list nat.
Variable F : list nat.
Variable next : nat -> nat -> outcome (option nat).
Variable first : nat -> outcome nat.
Hypothesis DV : distinct_vars g vars.
Hypothesis NE : vars <> [].
Hypothesis L : labeling g x.
Hypothesis C : covers T g F vars.
Hypothesis HO : Forall2 (fun v o => first v = Ret (nth 0 o 0) /\ forall a, a < length o -> next v (nth a o 0) = Ret (nth_error o (S a))) vars opts.
Hypothesis HV : Forall2 (fun v o => 0 < length o /\ forall b, In b o -> b < nth v (v_labels g) 0) vars opts.

Let sh := map (@length nat) opts.
Let cand k := tup opts (coord_of sh k).
Let E c := big T OP F (fun k => val T OP g k (relabel x vars c)).
Let init := big T OP F (fun k => val T OP g k x).

Lemma sh_pos : positive sh.
Proof.
  unfold sh, positive. clear - HV. induction HV as [|v o vs os [H _] H' IH]; constructor; auto.
Qed.
Lemma opts_len : length opts = length vars.
Proof. clear - HO. symmetry. eapply Forall2_len; eauto. Qed.
Lemma opts_shape : forall c, Forall2 (fun c o => In c o) c opts -> in_shape (labels_of g vars) c.
Proof.
  apply opts_shape_aux. exact HV.
Qed.
Lemma cand_in : forall k, Forall2 (fun c o => In c o) (cand k) opts.
Proof. intros k. apply tup_In, in_shape_opts. apply coord_of_in_shape. apply sh_pos. Qed.
Lemma cand_lab : forall k, labeling g (relabel x vars (cand k)).
Proof. intros k. apply relabel_in_shape; auto. apply opts_shape, cand_in. Qed.
Lemma E_fin : forall k, fin (E (cand k)).
Proof. intros. apply (big_fin T OP fin OL). intros. apply (val_fin T OP fin OL); auto. apply cand_lab. Qed.
Lemma init_fin : fin init.
Proof. apply (big_fin T OP fin OL). intros. apply (val_fin T OP fin OL); auto. Qed.
Lemma vars_in : Forall (fun v => v < length x) vars.
Proof. rewrite (labeling_length _ g x L). apply DV. Qed.
Lemma cand_len : forall k, length (cand k) = length vars.
Proof. intros. unfold cand. rewrite tup_length; [apply opts_len|]. rewrite coord_of_length. unfold sh. apply map_length. Qed.

(** What is known after examining the first [k] candidates. *)
Definition seen (k : nat) (best : T) (bs : list nat) : Prop :=
  fin best /\ better init best = false /\ (forall j, j < k -> better (E (cand j)) best = false) /\
  (best = init \/ exists j, j < k /\ best = E (cand j) /\ bs = cand j /\ better best init = true).

Lemma seen_step : forall k best bs, seen k best bs ->
  (better (E (cand k)) best = true -> seen (S k) (E (cand k)) (cand k)) /\
  (better (E (cand k)) best = false -> seen (S k) best bs).
Proof.
  intros k best bs (Fb & HI & HJ & HB). pose proof (E_fin k) as Fe. pose proof init_fin as Fi. split; intros B.
  - assert (better (E (cand k)) init = true) as BI.
    { destruct (better (E (cand k)) init) eqn:X; auto. rewrite (al_negtrans _ _ _ AL _ init _) in B; auto. }
    split; auto. split; [|split].
    + destruct (better init (E (cand k))) eqn:X; auto. rewrite (al_trans _ _ _ AL _ (E (cand k))) in HI; auto.
    + intros j Hj. destruct (Nat.eq_dec j k) as [->|N]; [apply (al_irrefl _ _ _ AL); auto|].
      destruct (better (E (cand j)) (E (cand k))) eqn:X; auto. rewrite <- (HJ j) by lia. symmetry. apply (al_trans _ _ _ AL) with (b := E (cand k)); auto. apply E_fin.
    + right. exists k. auto.
  - split; auto. split; auto. split.
    + intros j Hj. destruct (Nat.eq_dec j k) as [->|N]; auto. apply HJ. lia.
    + destruct HB as [HB|(j & A & B')]; auto. right. exists j. split; auto.
Qed.

Lemma search_ok : forall d k fuel best bs, size_of sh - k = d -> k < size_of sh -> d <= fuel -> seen k best bs ->
  exists buf best' bs', search T OP ACC fuel g F vars next first (relabel x vars (cand k)) best bs = Ret (buf, best', bs') /\
    seen (size_of sh) best' bs' /\ length buf = length x /\ (forall v, ~ In v vars -> nth v buf 0 = nth v x 0).
Proof.
  induction d as [|d IH]; intros k fuel best bs Hd Hk Hf HS; [lia|].
  destruct fuel as [|fuel]; [lia|]. cbn [search].
  rewrite (big_evaluate T OP fin OL g W FG) by (try apply cand_lab; apply C). cbn [bind]. fold (E (cand k)).
  assert (HSt : exists best1 bs1, (if better (E (cand k)) best then bs0 <- mapM (rd (relabel x vars (cand k))) vars ;; Ret (E (cand k), bs0) else Ret (best, bs)) = Ret (best1, bs1) /\ seen (S k) best1 bs1).
  { destruct (seen_step k best bs HS) as [S1 S2]. destruct (better (E (cand k)) best) eqn:B.
    - rewrite mapM_rd by (rewrite relabel_length; apply vars_in). cbn [bind]. rewrite relabel_init by (try apply cand_len; try apply vars_in; apply DV).
      eauto.
    - eauto. }
  destruct HSt as (best1 & bs1 & -> & HS1). cbn [bind].
  destruct (incr_state_spec next first vars opts (coord_of sh k) x) as [[HL (b & E1 & E2 & E3)]|[HL E1]]; auto.
  - apply DV. - apply vars_in. - apply in_shape_opts, coord_of_in_shape, sh_pos.
  - assert (HSz : S k = size_of sh).
    { apply last_pos_size in HL; auto. pose proof sh_pos as P. unfold positive, sh in P. rewrite Forall_map in P. exact P. }
    fold (cand k) in E1. rewrite E1. cbn [bind]. exists b, best1, bs1. split; auto. rewrite <- HSz. auto.
  - fold (cand k) in E1. rewrite E1. cbn [bind]. fold sh. rewrite incr_coord by apply sh_pos. fold (cand (S k)).
    assert (S k <> size_of sh).
    { intros X. apply HL. apply last_pos_size; auto. pose proof sh_pos as P. unfold positive, sh in P. rewrite Forall_map in P. exact P. }
    apply IH; auto; lia.
Qed.

Lemma search_start : forall fuel, size_of sh <= fuel -> forall bs0,
  exists buf best bs, search T OP ACC fuel g F vars next first (relabel x vars (map (fun o => nth 0 o 0) opts)) init bs0 = Ret (buf, best, bs) /\
    length buf = length x /\ (forall v, ~ In v vars -> nth v buf 0 = nth v x 0) /\
    fin best /\ better init best = false /\
    (forall c, Forall2 (fun c o => In c o) c opts -> better (E c) best = false) /\
    (best = init \/ (Forall2 (fun c o => In c o) bs opts /\ best = E bs /\ better best init = true)).
Proof.
  intros fuel Hf bs0. assert (C0 : cand 0 = map (fun o => nth 0 o 0) opts).
  { unfold cand. rewrite coord_of_0 by apply sh_pos. unfold sh. rewrite map_length. clear. induction opts as [|o os IH]; auto.
    cbn [length repeat]. rewrite tup_cons. cbn [map]. f_equal. auto. }
  rewrite <- C0. destruct (search_ok (size_of sh) 0 fuel init bs0) as (buf & best & bs & E1 & HS & H1 & H2); auto; try lia.
  - apply size_of_pos, sh_pos.
  - split; [apply init_fin|]. split; [apply (al_irrefl _ _ _ AL), init_fin|]. split; [lia|auto].
  - exists buf, best, bs. split; auto. split; auto. split; auto. destruct HS as (A & B & HJ & HB). split; auto. split; auto. split.
    + intros c Hc. apply In_tup in Hc. destruct Hc as (p & Hp & <-). fold sh in Hp.
      rewrite <- (coord_of_index sh p Hp). apply (HJ (index_of sh p)). apply index_of_lt. auto.
    + destruct HB as [HB|(j & _ & -> & -> & X)]; auto. right. split; auto. apply cand_in.
Qed.
End Search.

Lemma conclude_ok : forall m vars F opts buf best bs, mm_ok T OP g m -> distinct_vars g vars ->
  covers T g F vars ->
  (forall c, Forall2 (fun c o => In c o) c opts -> in_shape (labels_of g vars) c) ->
  let x := mm_state m in
  let E c := big T OP F (fun k => val T OP g k (relabel x vars c)) in
  let init := big T OP F (fun k => val T OP g k x) in
  length buf = length x -> (forall v, ~ In v vars -> nth v buf 0 = nth v x 0) ->
  (forall c, Forall2 (fun c o => In c o) c opts -> better (E c) best = false) ->
  (best = init \/ (Forall2 (fun c o => In c o) bs opts /\ best = E bs /\ better best init = true)) ->
  better init best = false ->
  exists m' , conclude T OP recompute ACC g m vars init buf best bs = Ret (m', mm_energy m') /\ mm_ok T OP g m' /\
    (forall c, Forall2 (fun c o => In c o) c opts -> better (total OP g (relabel x vars c)) (total OP g (mm_state m')) = false) /\
    (mm_state m' = x \/ exists c, Forall2 (fun c o => In c o) c opts /\ mm_state m' = relabel x vars c /\ better (total OP g (mm_state m')) (total OP g x) = true).
Proof.
  intros m vars F opts buf best bs O DV C HOp x E init HL HOff HBest HB HI. pose proof O as O'. destruct O' as (HF & L & HBuf & HE). fold x in L, HBuf, HE.
  pose proof (labeling_length _ g _ L) as LL. destruct DV as [ND HBd].
  assert (HBx : Forall (fun v => v < length x) vars) by (rewrite LL; auto).
  assert (Fi : fin init) by (apply (big_fin T OP fin OL); intros; apply (val_fin T OP fin OL); auto).
  assert (Lc : forall c, Forall2 (fun c o => In c o) c opts -> labeling g (relabel x vars c)) by (intros; apply relabel_in_shape; auto).
  assert (Fc : forall c, Forall2 (fun c o => In c o) c opts -> fin (E c)) by (intros; apply (big_fin T OP fin OL); intros; apply (val_fin T OP fin OL); auto).
  assert (TC : forall c, Forall2 (fun c o => In c o) c opts -> exists r, fin r /\ total OP g x = o_op OP init r /\ total OP g (relabel x vars c) = o_op OP (E c) r).
  { intros c Hc. apply (total_change T OP fin OL g W FG F vars); auto. intros v Hv. symmetry. apply relabel_off. auto. }
  assert (TR : exists r, fin r /\ total OP g x = o_op OP init r /\ forall c, Forall2 (fun c o => In c o) c opts -> total OP g (relabel x vars c) = o_op OP (E c) r).
  { destruct (total_change T OP fin OL g W FG F vars x x C L L) as (r & Fr & E1 & _); auto. fold init in E1. exists r. split; auto. split; auto.
    intros c Hc. destruct (TC c Hc) as (r' & Fr' & E1' & E2'). rewrite E2'. f_equal.
    rewrite <- (ol_undo _ _ OL init r) by auto. rewrite <- E1, E1'. rewrite (ol_undo _ _ OL) by auto. auto. }
  destruct TR as (r & Fr & ET & EC).
  assert (MONO : forall a b, fin a -> fin b -> better (o_op OP a r) (o_op OP b r) = better a b).
  { intros a b Fa Fb. rewrite (ol_comm _ _ OL a r), (ol_comm _ _ OL b r) by auto. apply (al_mono _ _ _ AL); auto. }
  unfold conclude. destruct (better best init) eqn:B.
  - destruct HB as [->|(Hbs & EB & _)]; [rewrite (al_irrefl _ _ _ AL) in B by auto; discriminate|].
    pose proof (HOp _ Hbs) as Hsh. pose proof (in_shape_labels_off _ _ _ Hsh) as Hlen.
    rewrite write2_loop by (auto; rewrite HL; auto). cbn [bind]. fold x.
    assert (buf' : relabel buf vars bs = relabel x vars bs).
    { rewrite (off_eq vars x buf) by auto. apply relabel_relabel; auto. unfold at_vars. apply map_length. }
    rewrite buf'. set (x' := relabel x vars bs) in *. assert (L' : labeling g x') by (apply Lc; auto).
    assert (EN : (if recompute (mm_energy m) then v_evaluate T OP g x' else Ret (o_op OP best (o_iop OP init (mm_energy m)))) = Ret (total OP g x')).
    { destruct (recompute (mm_energy m)).
      - apply (v_evaluate_total T OP g); auto. apply labeling_length. auto.
      - rewrite HE, ET, (ol_undo _ _ OL) by auto. f_equal. rewrite EB. symmetry. apply EC. auto. }
    rewrite EN. cbn [bind]. exists (mkMm (mm_fov m) x' x' (total OP g x')). split; [reflexivity|]. cbn [mm_state]. split; [apply moved_ok; auto|]. split.
    + intros c Hc. unfold x'. rewrite (EC c Hc), (EC bs Hbs), MONO by auto. rewrite <- EB. auto.
    + right. exists bs. split; auto. split; auto. unfold x'. rewrite (EC bs Hbs), ET, MONO by auto. rewrite <- EB. auto.
  - assert (X : restore x buf vars = Ret x) by (rewrite restore_ret by auto; rewrite relabel_back; auto).
    fold x. rewrite X. cbn [bind]. exists m. assert (EM : mkMm (mm_fov m) x x (mm_energy m) = m) by (rewrite <- HBuf at 2; destruct m; auto).
    rewrite EM. split; auto. split; auto. split; [|auto]. fold x. intros c Hc. rewrite (EC c Hc), ET, MONO by auto.
    destruct (better (E c) init) eqn:Y; auto. rewrite <- (HBest c Hc). symmetry.
    destruct HB as [->|(_ & -> & B')]; [auto|]. rewrite B' in B. discriminate.
Qed.

Lemma lt_pred_spec : forall b k, 0 < k -> lt_pred b k = (S b <? k).
Proof. intros b k H. unfold lt_pred. destruct (Nat.eqb_spec k 0); [lia|]. cbn [orb]. destruct (Nat.ltb_spec b (k-1)), (Nat.ltb_spec (S b) k); auto; lia. Qed.

Lemma label_pos : forall v, v < length (v_labels g) -> 0 < nth v (v_labels g) 0.
Proof. intros v H. destruct W as [_ P]. unfold positive in P. rewrite Forall_forall in P. apply P, nth_In. auto. Qed.

(** All labels of each variable. *)
Definition all_opts (vars : list nat) : list (list nat) := map (fun v => seq 0 (nth v (v_labels g) 0)) vars.
Lemma all_opts_in : forall vars c, Forall2 (fun c o => In c o) c (all_opts vars) <-> in_shape (labels_of g vars) c.
Proof.
  unfold labels_of. induction vars as [|v vars IH]; intros c; cbn [all_opts map].
  - split; intros H; inversion H; constructor.
  - split; intros H; inversion H; subst; constructor; try (apply IH; auto).
    + match goal with X : In _ (seq _ _) |- _ => apply in_seq in X; lia end.
    + apply in_seq. lia.
Qed.

Lemma moveOptimally_ok : forall m vars fuel, mm_ok T OP g m -> distinct_vars g vars -> vars <> [] ->
  size_of (labels_of g vars) <= fuel ->
  exists m', moveOptimally T OP recompute ACC fuel g m vars = Ret (m', mm_energy m') /\ mm_ok T OP g m' /\
    (forall c, in_shape (labels_of g vars) c -> better (total OP g (relabel (mm_state m) vars c)) (total OP g (mm_state m')) = false) /\
    (mm_state m' = mm_state m \/ exists c, in_shape (labels_of g vars) c /\ mm_state m' = relabel (mm_state m) vars c /\
        better (total OP g (mm_state m')) (total OP g (mm_state m)) = true).
Proof.
  intros m vars fuel O DV NE Hf. unfold moveOptimally. pose proof O as O'. destruct O' as (HF & L & HBuf & HE).
  destruct (recompute_ok T OP g m vars O (proj2 DV)) as (F & EF & C). rewrite EF. cbn [bind].
  rewrite (big_evaluate T OP fin OL g W FG) by (auto; apply C). cbn [bind].
  assert (HBx : Forall (fun v => v < length (mm_state m)) vars) by (rewrite (labeling_length _ g _ L); apply DV).
  rewrite HBuf, write_const by auto. cbn [bind].
  assert (Z : map (fun o => nth 0 o 0) (all_opts vars) = repeat 0 (length vars)).
  { unfold all_opts. rewrite map_map. clear. induction vars as [|v vars IH]; auto. cbn [map length repeat]. f_equal; auto. destruct (nth v (v_labels g) 0); auto. }
  rewrite <- Z.
  assert (H1 : Forall2 (fun v o => (fun _ : nat => Ret 0) v = Ret (nth 0 o 0) /\
     forall a, a < length o -> (fun v b => k <- rd (v_labels g) v ;; Ret (if lt_pred b k then Some (S b) else None)) v (nth a o 0) = Ret (nth_error o (S a))) vars (all_opts vars)).
  { destruct DV as [_ HB]. clear - HB W. unfold all_opts. induction vars as [|v vars IH]; cbn [map]; [constructor|]. apply Forall_cons_iff in HB. destruct HB as [HV HB].
    constructor; auto. pose proof (label_pos v HV). set (k := nth v (v_labels g) 0) in *. split; [destruct k; auto|].
    intros a Ha. rewrite seq_length in Ha. rewrite (rd_nth _ _ v 0 HV). fold k. cbn [bind]. rewrite seq_nth by auto. rewrite lt_pred_spec by auto. rewrite Nat.add_0_l.
    destruct (Nat.ltb_spec (S a) k) as [X|X].
    - rewrite (nth_error_nth' _ 0) by (rewrite seq_length; auto). rewrite seq_nth; auto.
    - rewrite (proj2 (nth_error_None _ _)); auto. rewrite seq_length. auto. }
  assert (H2 : Forall2 (fun v o => 0 < length o /\ forall b, In b o -> b < nth v (v_labels g) 0) vars (all_opts vars)).
  { destruct DV as [_ HB]. clear - HB W. unfold all_opts. induction vars as [|v vars IH]; cbn [map]; [constructor|]. apply Forall_cons_iff in HB. destruct HB as [HV HB].
    constructor; auto. rewrite seq_length. split; [apply label_pos; auto|]. intros b Hb. apply in_seq in Hb. lia. }
  destruct (search_start vars (all_opts vars) (mm_state m) F _ _ DV NE L C H1 H2 fuel) with (bs0 := map (fun o => nth 0 o 0) (all_opts vars)) as (buf & best & bs & ES & A1 & A2 & A3 & A4 & A5 & A6).
  { unfold all_opts. rewrite map_map. erewrite map_ext; [exact Hf|]. intros v. apply seq_length. }
  rewrite ES. cbn [bind].
  destruct (conclude_ok m vars F (all_opts vars) buf best bs) as (m' & EM & OM & M1 & M2); auto.
  { intros c Hc. apply all_opts_in. auto. }
  exists m'. rewrite EM. split; auto. split; auto. split; [intros c Hc; apply M1, all_opts_in; auto|].
  destruct M2 as [M2|(c & X1 & X2 & X3)]; auto. right. exists c. split; [apply all_opts_in; auto|auto].
Qed.

(** All labels but the current one. *)
Definition skip (s p : nat) : nat := if p <? s then p else S p.
Definition changed_opts (x vars : list nat) : list (list nat) :=
  map (fun v => map (skip (nth v x 0)) (seq 0 (nth v (v_labels g) 0 - 1))) vars.
Lemma skip_in : forall s k b, s < k -> (In b (map (skip s) (seq 0 (k - 1))) <-> b < k /\ b <> s).
Proof.
  intros s k b Hs. rewrite in_map_iff. unfold skip. split.
  - intros (p & E & Hp). apply in_seq in Hp. destruct (Nat.ltb_spec p s); lia.
  - intros [H1 H2]. destruct (Nat.ltb_spec b s).
    + exists b. rewrite (proj2 (Nat.ltb_lt b s)) by auto. split; auto. apply in_seq. lia.
    + exists (b - 1). rewrite (proj2 (Nat.ltb_ge (b - 1) s)) by lia. split; [lia|]. apply in_seq. lia.
Qed.
Lemma changed_opts_in : forall vars x, labeling g x -> Forall (fun v => v < length (v_labels g)) vars ->
  forall c, Forall2 (fun c o => In c o) c (changed_opts x vars) <-> in_shape (labels_of g vars) c /\ Forall2 (fun b v => b <> nth v x 0) c vars.
Proof.
  unfold labels_of. induction vars as [|v vars IH]; intros x L HB c; cbn [changed_opts map].
  - split; [intros H; inversion H; split; constructor|intros [H _]; inversion H; constructor].
  - apply Forall_cons_iff in HB. destruct HB as [HV HB].
    assert (nth v x 0 < nth v (v_labels g) 0).
    { clear - L HV. unfold labeling, in_shape in L. revert v HV. induction L; intros [|v] HV; cbn in *; try lia; auto. apply IHL. lia. }
    split.
    + intros X. inversion X as [|b o c' os Hb Hc]; subst. apply skip_in in Hb; auto. apply (IH x L HB) in Hc. destruct Hb, Hc. split; constructor; auto.
    + intros [X Y]. inversion X as [|b o c' os Hb Hc]; subst. inversion Y; subst. constructor; [apply skip_in; auto|]. apply (IH x L HB). auto.
Qed.

Lemma initial_changed_ok : forall m, mm_ok T OP g m -> forall vars j b, Forall (fun v => v < length (v_labels g)) vars ->
  Forall (fun k => 2 <= k) (labels_of g vars) -> length b = length (v_labels g) ->
  initial_changed T g m j vars b = Ret (relabel b vars (map (fun o => nth 0 o 0) (changed_opts (mm_state m) vars)), false).
Proof.
  intros m (HF & L & _). pose proof (labeling_length _ g _ L) as LL.
  induction vars as [|v vars IH]; intros j b HB H2 Hb; auto. cbn [initial_changed].
  apply Forall_cons_iff in HB. destruct HB as [HV HB]. cbn [labels_of map] in H2. apply Forall_cons_iff in H2. destruct H2 as [HN H2].
  rewrite (rd_nth _ _ v 0 HV). cbn [bind]. set (k := nth v (v_labels g) 0) in *. destruct (Nat.eqb_spec k 1); [lia|].
  unfold first_changed. rewrite (rd_nth _ (mm_state m) v 0) by lia. cbn [bind]. rewrite wr_Ret by lia. cbn [bind].
  rewrite IH by (auto; rewrite length_upd; auto). cbn [changed_opts map]. rewrite relabel_cons. fold k.
  replace (nth 0 (map (skip (nth v (mm_state m) 0)) (seq 0 (k - 1))) 0) with (if nth v (mm_state m) 0 =? 0 then 1 else 0); auto.
  destruct (k - 1) as [|k'] eqn:K; [lia|]. cbn [seq map nth]. unfold skip. destruct (nth v (mm_state m) 0); auto.
Qed.

Lemma moveAllChanging_ok : forall m vars fuel, mm_ok T OP g m -> distinct_vars g vars -> vars <> [] ->
  Forall (fun k => 2 <= k) (labels_of g vars) -> size_of (labels_of g vars) <= fuel ->
  exists m', moveOptimallyWithAllLabelsChanging T OP recompute ACC fuel g m vars = Ret (m', mm_energy m') /\ mm_ok T OP g m' /\
    (forall c, in_shape (labels_of g vars) c -> Forall2 (fun b v => b <> nth v (mm_state m) 0) c vars ->
        better (total OP g (relabel (mm_state m) vars c)) (total OP g (mm_state m')) = false) /\
    (mm_state m' = mm_state m \/ exists c, in_shape (labels_of g vars) c /\ Forall2 (fun b v => b <> nth v (mm_state m) 0) c vars /\
        mm_state m' = relabel (mm_state m) vars c /\ better (total OP g (mm_state m')) (total OP g (mm_state m)) = true).
Proof.
  intros m vars fuel O DV NE H2L Hf. unfold moveOptimallyWithAllLabelsChanging. pose proof O as O'. destruct O' as (HF & L & HBuf & HE).
  destruct (recompute_ok T OP g m vars O (proj2 DV)) as (F & EF & C). rewrite EF. cbn [bind].
  rewrite (big_evaluate T OP fin OL g W FG) by (auto; apply C). cbn [bind].
  pose proof (labeling_length _ g _ L) as LL. pose proof (proj2 DV) as HB.
  rewrite initial_changed_ok by (auto; rewrite HBuf; auto). cbn [bind]. rewrite HBuf.
  set (x := mm_state m) in *.
  assert (HX : Forall (fun v => nth v x 0 < nth v (v_labels g) 0) vars).
  { eapply Forall_impl; [|exact HB]. cbn. clear - L. unfold labeling, in_shape in L. induction L; intros [|v] HV; cbn in *; try lia; auto. apply IHL. lia. }
  assert (H1 : Forall2 (fun v o => first_changed T m v = Ret (nth 0 o 0) /\
     forall a, a < length o -> next_changed T g m v (nth a o 0) = Ret (nth_error o (S a))) vars (changed_opts x vars)).
  { clear - HB LL HX H2L. unfold changed_opts. subst x. induction vars as [|v vars IH]; cbn [map]; [constructor|].
    apply Forall_cons_iff in HB. destruct HB as [HV HB]. apply Forall_cons_iff in HX. destruct HX as [Hs HX].
    cbn [labels_of map] in H2L. apply Forall_cons_iff in H2L. destruct H2L as [HK H2L].
    constructor; auto. set (k := nth v (v_labels g) 0) in *. set (s := nth v (mm_state m) 0) in *.
    unfold first_changed, next_changed. rewrite (rd_nth _ (mm_state m) v 0) by lia. rewrite (rd_nth _ _ v 0 HV). cbn [bind]. fold k s. split.
    - destruct (k - 1) as [|k'] eqn:K; [lia|]. cbn [seq map nth]. unfold skip. destruct s; auto.
    - intros a Ha. rewrite map_length, seq_length in Ha.
      assert (NT : forall i, i < k - 1 -> nth_error (map (skip s) (seq 0 (k - 1))) i = Some (skip s i)).
      { intros i Hi. rewrite nth_error_map, (nth_error_nth' _ 0) by (rewrite seq_length; auto). rewrite seq_nth by auto. auto. }
      rewrite (nth_error_nth _ _ 0 (NT a Ha)). rewrite lt_pred_spec by lia. unfold skip at 1 2 3 4.
      destruct (Nat.lt_ge_cases (S a) (k - 1)) as [X|X].
      + rewrite NT by auto. unfold skip. destruct (Nat.ltb_spec a s), (Nat.ltb_spec (S a) s); try lia.
        * destruct (Nat.ltb_spec (S a) k); [|lia]. destruct (Nat.eqb_spec (S a) s); [lia|]. auto.
        * destruct (Nat.ltb_spec (S a) k); [|lia]. destruct (Nat.eqb_spec (S a) s); [|lia]. cbn [negb]. rewrite lt_pred_spec by lia.
          destruct (Nat.ltb_spec (S (S a)) k); [auto|lia].
        * destruct (Nat.ltb_spec (S (S a)) k); [|lia]. destruct (Nat.eqb_spec (S (S a)) s); [lia|]. auto.
      + rewrite (proj2 (nth_error_None _ _)) by (rewrite map_length, seq_length; lia).
        destruct (Nat.ltb_spec a s).
        * destruct (Nat.ltb_spec (S a) k); [|auto]. destruct (Nat.eqb_spec (S a) s); [|lia]. cbn [negb]. rewrite lt_pred_spec by lia.
          destruct (Nat.ltb_spec (S (S a)) k); [lia|auto].
        * destruct (Nat.ltb_spec (S (S a)) k); [lia|auto]. }
  assert (H2 : Forall2 (fun v o => 0 < length o /\ forall b, In b o -> b < nth v (v_labels g) 0) vars (changed_opts x vars)).
  { clear - HX H2L. unfold changed_opts. induction vars as [|v vars IH]; cbn [map]; [constructor|]. apply Forall_cons_iff in HX. destruct HX as [Hs HX].
    cbn [labels_of map] in H2L. apply Forall_cons_iff in H2L. destruct H2L as [HK H2L].
    constructor; auto. rewrite map_length, seq_length. split; [lia|]. intros b Hb. apply skip_in in Hb; lia. }
  destruct (search_start vars (changed_opts x vars) x F _ _ DV NE L C H1 H2 fuel) with (bs0 := repeat 0 (length vars)) as (buf & best & bs & ES & A1 & A2 & A3 & A4 & A5 & A6).
  { etransitivity; [|exact Hf]. unfold changed_opts, labels_of. rewrite map_map. clear. induction vars as [|v vars IH]; cbn [map size_of fold_right]; auto.
    rewrite map_length, seq_length. apply Nat.mul_le_mono; [lia|exact IH]. }
  rewrite ES. cbn [bind]. pose proof (changed_opts_in vars x L HB) as CI.
  destruct (conclude_ok m vars F (changed_opts x vars) buf best bs) as (m' & EM & OM & M1 & M2); auto.
  { intros c Hc. apply CI. auto. }
  fold x in EM. exists m'. rewrite EM. split; auto. split; auto. split; [intros c Hc1 Hc2; apply M1, CI; auto|].
  destruct M2 as [M2|(c & X1 & X2 & X3)]; auto. right. exists c. apply CI in X1. destruct X1. auto.
Qed.

(** Histories. *)
Lemma size_of_perm : forall l1 l2, Permutation l1 l2 -> size_of l1 = size_of l2.
Proof. intros l1 l2 P. induction P; unfold size_of in *; cbn [fold_right] in *; try rewrite !Nat.mul_assoc; try congruence. f_equal. lia. Qed.
Lemma size_of_app : forall l1 l2, size_of (l1 ++ l2) = size_of l1 * size_of l2.
Proof. induction l1 as [|a l1 IH]; intros; unfold size_of in *; cbn [app fold_right]; [lia|]. rewrite IH. lia. Qed.
Lemma map_nth_seq : forall (l : list nat), map (fun v => nth v l 0) (seq 0 (length l)) = l.
Proof.
  intros l. apply (nth_ext _ _ 0 0); [rewrite map_length, seq_length; auto|]. intros i Hi. rewrite map_length, seq_length in Hi.
  rewrite (nth_indep _ 0 (nth 0 l 0)) by (rewrite map_length, seq_length; auto). rewrite (map_nth (fun v => nth v l 0)). rewrite seq_nth by auto. auto.
Qed.
Lemma labels_of_size : forall vars, distinct_vars g vars -> size_of (labels_of g vars) <= rounds g.
Proof.
  intros vars [ND HB]. unfold rounds, labels_of. rewrite Forall_forall in HB.
  pose proof (split_perm (length (v_labels g)) vars ND HB) as P. apply (Permutation_map (fun v => nth v (v_labels g) 0)) in P.
  rewrite map_nth_seq in P. rewrite (size_of_perm _ _ P), map_app, size_of_app.
  assert (1 <= size_of (map (fun v => nth v (v_labels g) 0) (filter (fun k => negb (mem k vars)) (seq 0 (length (v_labels g)))))).
  { apply size_of_pos. apply Forall_forall. intros k Hk. apply in_map_iff in Hk. destruct Hk as (v & <- & Hv). apply filter_In in Hv. destruct Hv as [Hv _]. apply in_seq in Hv. apply label_pos. lia. }
  nia.
Qed.

Lemma mstep_ok : forall fuel m o, rounds g <= fuel -> mm_ok T OP g m -> mlegal g o ->
  exists m', mstep T OP mult recompute ACC fuel g m o = Ret m' /\ mm_ok T OP g m'.
Proof.
  intros fuel m o Hf O Lg. destruct o as [vars dest|vars dest|x| |vars|vars]; cbn [mstep mlegal] in *.
  - destruct Lg. rewrite (valueAfterMove_ok T OP mult fin OL g W FG) by auto. cbn [bind fst]. eauto.
  - destruct Lg as [DV HD]. rewrite (move_ok T OP mult fin OL g W FG) by auto. eexists. split; [reflexivity|]. apply moved_ok; auto. apply relabel_in_shape; auto. apply O.
  - destruct (mm_initialize_ok T OP g W m x O Lg) as (m' & E & O' & _). eauto.
  - destruct (mm_reset_ok T OP g W m O) as (m' & E & O' & _). eauto.
  - destruct Lg as [DV NE]. destruct (moveOptimally_ok m vars fuel O DV NE) as (m' & E & O' & _); [pose proof (labels_of_size vars DV); lia|]. rewrite E. cbn [bind fst]. eauto.
  - destruct Lg as (DV & NE & H2). destruct (moveAllChanging_ok m vars fuel O DV NE H2) as (m' & E & O' & _); [pose proof (labels_of_size vars DV); lia|]. rewrite E. cbn [bind fst]. eauto.
Qed.
Lemma mhistory_ok : forall fuel ops m, rounds g <= fuel -> mm_ok T OP g m -> Forall (mlegal g) ops ->
  exists m', foldM (mstep T OP mult recompute ACC fuel g) ops m = Ret m' /\ mm_ok T OP g m'.
Proof.
  intros fuel ops m Hf O H. revert m O. induction H as [|o ops Ho H IH]; intros m O; [cbn; eauto|].
  destruct (mstep_ok fuel m o Hf O Ho) as (m1 & E1 & O1). cbn [foldM]. rewrite E1. cbn [bind]. auto.
Qed.
End S.
