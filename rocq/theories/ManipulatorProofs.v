(** Proofs for C20: building the modified model and the sub-models. *)
From Verif Require Import Base Values GmView GmViewSpec ShapeSpec ShapeProofs GmProofs GmViewProofs OperationsModel GmViewProps
  UtilModel UtilProps FunctionViewsModel FunctionViewsProps MovemakerModel MovemakerSpec MovemakerProofs IcmProofs SubmodelModel SubmodelProps
  DpProofs ManipulatorModel ManipulatorSpec ManipulatorRep ManipulatorExpand.
From Coq Require Import Sorted.
#[local] Arguments nth_error : simpl never.

Lemma filter_filter : forall A (p q : A -> bool) l, filter q (filter p l) = filter (fun a => p a && q a) l.
Proof. intros A p q l. induction l as [|a l IH]; auto. cbn. destruct (p a); cbn; [destruct (q a)|]; rewrite IH; auto. Qed.
Lemma filter_S : forall p j, filter p (seq 0 (S j)) = filter p (seq 0 j) ++ (if p j then [j] else []).
Proof. intros. rewrite seq_S, filter_app. auto. Qed.
Lemma filter_prefix : forall (p : nat -> bool) j k i v, j <= k -> nth_error (filter p (seq 0 j)) i = Some v -> nth_error (filter p (seq 0 k)) i = Some v.
Proof.
  intros p j k i v H E. replace k with (j + (k - j)) by lia. rewrite seq_app, filter_app, nth_error_app1; auto. apply nth_error_Some. congruence.
Qed.
Lemma nth_error_snoc_last : forall A (l : list A) a, nth_error (l ++ [a]) (length l) = Some a.
Proof. intros. rewrite nth_error_app2, Nat.sub_diag by auto. auto. Qed.
Lemma nodup_pos : forall (l : list nat) i j v, NoDup l -> nth_error l i = Some v -> nth_error l j = Some v -> i = j.
Proof. intros l i j v ND E1 E2. rewrite NoDup_nth_error in ND. apply ND; [apply nth_error_Some; congruence|congruence]. Qed.
Lemma list_eq_nth : forall (a b : list nat), length a = length b -> (forall i, i < length a -> nth i a 0 = nth i b 0) -> a = b.
Proof. intros. apply nth_ext with (d := 0) (d' := 0); auto. Qed.

Section Big.
Variable T : Type.
Variable OP : oper T.
Variable fin : T -> Prop.
Hypothesis OL : op_laws fin OP.

Lemma big_swap : forall a b c, fin a -> fin b -> fin c -> o_op OP a (o_op OP b c) = o_op OP b (o_op OP a c).
Proof.
  intros a b c A B C. rewrite (ol_assoc _ _ OL a b c), (ol_comm _ _ OL a b), <- (ol_assoc _ _ OL b a c); auto.
Qed.
Lemma big_filter : forall (p : nat -> bool) l f, (forall k, In k l -> fin (f k)) ->
  big T OP l f = o_op OP (big T OP (filter p l) f) (big T OP (filter (fun k => negb (p k)) l) f).
Proof.
  intros p l f. induction l as [|k l IH]; intros HF.
  - cbn. symmetry. apply (ol_unit _ _ OL). apply (ol_neutral _ _ OL).
  - assert (fin (f k)) by (apply HF; left; auto). assert (HF' : forall q, In q l -> fin (f q)) by (intros; apply HF; right; auto).
    assert (A : fin (big T OP (filter p l) f)) by (apply big_fin; auto; intros q Hq; apply filter_In in Hq; apply HF'; tauto).
    assert (B : fin (big T OP (filter (fun k => negb (p k)) l) f)) by (apply big_fin; auto; intros q Hq; apply filter_In in Hq; apply HF'; tauto).
    rewrite big_cons, IH by auto. cbn [filter]. destruct (p k); cbn [negb]; rewrite big_cons.
    + apply (ol_assoc _ _ OL); auto.
    + apply big_swap; auto.
Qed.
Lemma big_bump : forall l j c e, NoDup l -> In j l -> fin c -> (forall i, In i l -> fin (e i)) ->
  big T OP l (fun i => if i =? j then o_op OP c (e i) else e i) = o_op OP c (big T OP l e).
Proof.
  induction l as [|a l IH]; intros j c e ND HI HC HE; [destruct HI|]. rewrite !big_cons. apply NoDup_cons_iff in ND. destruct ND as [NI ND].
  assert (HE' : forall i, In i l -> fin (e i)) by (intros; apply HE; right; auto). assert (fin (e a)) by (apply HE; left; auto).
  assert (fin (big T OP l e)) by (apply big_fin; auto).
  destruct (Nat.eqb_spec a j) as [->|N].
  - rewrite (big_ext T OP l _ e). { symmetry. apply (ol_assoc _ _ OL); auto. }
    intros i Hi. destruct (Nat.eqb_spec i j) as [->|]; [contradiction|auto].
  - destruct HI as [->|HI]; [congruence|]. rewrite IH by auto. apply big_swap; auto.
Qed.
Lemma big_neutral : forall l, big T OP l (fun _ => o_neutral OP) = o_neutral OP.
Proof. induction l as [|a l IH]; auto. rewrite big_cons, IH. apply (ol_unit _ _ OL), (ol_neutral _ _ OL). Qed.
Lemma big_buckets : forall (sp : nat -> nat) K f l, (forall k, In k l -> sp k < K /\ fin (f k)) ->
  big T OP (seq 0 K) (fun i => big T OP (filter (fun k => sp k =? i) l) f) = big T OP l f.
Proof.
  intros sp K f l. induction l as [|k l IH]; intros H; [apply big_neutral|]. destruct (H k (or_introl eq_refl)) as [Hk Fk].
  assert (H' : forall q, In q l -> sp q < K /\ fin (f q)) by (intros; apply H; right; auto).
  rewrite big_cons, <- IH by auto. rewrite <- (big_bump (seq 0 K) (sp k)); auto; [|apply seq_NoDup|apply in_seq; lia|].
  - apply big_ext. intros i _. cbn [filter]. rewrite (Nat.eqb_sym (sp k) i). destruct (i =? sp k); auto.
  - intros i _. apply big_fin; auto. intros q Hq. apply filter_In in Hq. apply H'. tauto.
Qed.
End Big.

Section S.
Variable T : Type.
Variable OP : oper T.
Variable fin : T -> Prop.
Hypothesis OL : op_laws fin OP.
Variable g : gmv T.
Hypothesis W : wf_gmv g.
Hypothesis FG : fin_gmv fin g.
Variable md : mode.
Let n := length (v_labels g).
Let nf := length (v_factors g).

(** The invariant that ties the fixed variables to the members. *)
Record fixed_by (fx : fixes) (m : man T) : Prop := {
  fb_len : length fx = n;
  fb_ok : fixes_ok T g fx;
  fb_fix : a_fix m = map (fun v => negb (is_free fx v)) (seq 0 n);
  fb_lablen : length (a_lab m) = n;
  fb_lab : forall v l, nth v fx None = Some l -> nth v (a_lab m) 0 = l;
  fb_v2s : length (a_v2s m) = n }.

Section B.
Variable fx : fixes.
Variable m : man T.
Hypothesis FB : fixed_by fx m.
Hypothesis HT : a_tent m = repeat false nf.
Let LFX : length fx = n. Proof. apply FB. Qed.
Let FO : fixes_ok T g fx. Proof. apply FB. Qed.
Let HF : a_fix m = map (fun v => negb (is_free fx v)) (seq 0 n). Proof. apply FB. Qed.
Let HL : length (a_lab m) = n. Proof. apply FB. Qed.
Let HLn : forall v l, nth v fx None = Some l -> nth v (a_lab m) 0 = l. Proof. apply FB. Qed.
Let LV2 : length (a_v2s m) = n. Proof. apply FB. Qed.
Notation allfree := (all_free fx).
Notation allfixed := (all_fixed fx).
Notation Z0 := (z0 fx).

Definition visP (P : list nat -> bool) (k : nat) : bool := match nth_error (v_factors g) k with Some fc => P (fst fc) | None => false end.
Lemma rd_f : forall v, v < n -> rd (a_fix m) v = Ret (negb (is_free fx v)).
Proof. intros v Hv. apply (rd_fix T g fx m HF). auto. Qed.
Lemma rd_t : forall k, k < nf -> rd (a_tent m) k = Ret false.
Proof. intros k Hk. rewrite HT. rewrite (rd_nth _ _ k false) by (rewrite repeat_length; auto). f_equal. apply nth_repeat. Qed.

Lemma val_fixed : forall k z, visP allfixed k = true -> extends fx z -> val T OP g k z = val T OP g k Z0.
Proof.
  intros k z H X. unfold visP in H. unfold val. destruct (nth_error (v_factors g) k) as [fc|]; auto. f_equal. apply at_vars_ext.
  intros v Hv. unfold all_fixed in H. rewrite forallb_forall in H. specialize (H v Hv). apply negb_true_iff in H. destruct (not_free _ _ H) as (l & El).
  rewrite (extends_nth _ _ _ _ X El), (extends_nth _ _ _ _ (z0_extends fx) El). auto.
Qed.
Lemma const_ok : forall k fc c, nth_error (v_factors g) k = Some fc -> allfixed (fst fc) = true ->
  man_const T OP m (fst fc) (fvw T g fc) c = Ret (o_op OP (val T OP g k Z0) c).
Proof.
  intros k fc c Ek A. unfold man_const. destruct (wf_nth _ _ _ _ W Ek) as [_ HB]. rewrite mapM_rd by (rewrite HL; auto). cbn [bind].
  unfold fa_call. cbn [fvw fa_shape fa_value]. rewrite at_length, map_length, Nat.eqb_refl. cbn [bind]. f_equal. f_equal. unfold val. rewrite Ek. f_equal.
  apply at_vars_ext. intros v Hv. unfold all_fixed in A. rewrite forallb_forall in A. specialize (A v Hv). apply negb_true_iff in A. destruct (not_free _ _ A) as (l & El).
  rewrite (HLn _ _ El), (extends_nth _ _ _ _ (z0_extends fx) El). auto.
Qed.
Lemma fixed_order0 : forall vis, allfree vis = true -> allfixed vis = true -> vis = [].
Proof.
  intros [|v vis]; auto. unfold all_free, all_fixed. cbn. intros A B. apply andb_prop in A. apply andb_prop in B. destruct A as [A _], B as [B _]. rewrite A in B. discriminate.
Qed.

(** Values *)
Lemma fin_val : forall z k, labeling g z -> fin (val T OP g k z).
Proof. intros. apply (val_fin T OP fin OL g); auto. Qed.
Lemma rfold_snoc : forall rs r z, rfold T OP g (rs ++ [r]) z = o_op OP (rval T OP g r z) (rfold T OP g rs z).
Proof. intros. unfold rfold. rewrite fold_left_app. auto. Qed.
Lemma rfold_big : forall ks z, labeling g z -> rfold T OP g (map inl ks) z = big T OP ks (fun k => val T OP g k z).
Proof.
  intros ks z Hz. unfold rfold. rewrite <- (op_unit_r T OP fin OL (big T OP ks _)) by (apply (big_fin T OP fin OL); intros; apply fin_val; auto).
  rewrite <- (big_fold_left T OP fin OL ks (fun k => val T OP g k z) (o_neutral OP)); [|apply (ol_neutral _ _ OL)|intros; apply fin_val; auto].
  generalize (o_neutral OP). induction ks as [|k ks IH]; intros acc; auto. cbn. apply IH.
Qed.
Lemma total_kept : forall z, total OP (kept g fx) z = fold_left (fun acc k => o_op OP (val T OP g k z) acc) (filter (visP allfree) (seq 0 nf)) (o_neutral OP).
Proof.
  intros z. unfold total. cbn [kept v_factors].
  assert (G : forall j, j <= nf -> fold_left (fun acc fc => o_op OP (snd fc (at_vars z (fst fc))) acc) (filter (fun fc => forallb (is_free fx) (fst fc)) (firstn j (v_factors g))) (o_neutral OP) =
     fold_left (fun acc k => o_op OP (val T OP g k z) acc) (filter (visP allfree) (seq 0 j)) (o_neutral OP)).
  { induction j as [|j IH]; intros Hj; auto. destruct (nth_error (v_factors g) j) as [fc|] eqn:E; [|apply nth_error_None in E; unfold nf in Hj; lia].
    rewrite (firstn_snoc _ _ _ _ E), filter_app, filter_S, !fold_left_app, IH by lia. unfold visP at 2. rewrite E. cbn [filter]. fold (allfree (fst fc)).
    destruct (allfree (fst fc)); auto. cbn [fold_left]. f_equal. unfold val. rewrite E. auto. }
  specialize (G nf (le_n _)). unfold nf in G at 1. rewrite firstn_all in G. exact G.
Qed.
Lemma total_kept_big : forall z, labeling g z -> total OP (kept g fx) z = big T OP (filter (visP allfree) (seq 0 nf)) (fun k => val T OP g k z).
Proof.
  intros z Hz. rewrite total_kept. rewrite (big_fold_left T OP fin OL); [|apply (ol_neutral _ _ OL)|intros; apply fin_val; auto].
  apply (op_unit_r T OP fin OL). apply (big_fin T OP fin OL). intros; apply fin_val; auto.
Qed.

(** A classification of the factors: kept, part of the constant, or neither. *)
Variable keepP constP : list nat -> bool.
Hypothesis KD : md = DROP -> (forall vis, keepP vis = allfree vis) /\ (forall vis, constP vis = false).
Hypothesis KF : md = FIX -> (forall vis, constP vis = negb (keepP vis)) /\ (forall vis, constP vis = true -> allfixed vis = true).
Definition cst (j : nat) : T := fold_left (fun acc k => o_op OP (val T OP g k Z0) acc) (filter (visP constP) (seq 0 j)) (o_neutral OP).
Lemma cst_big : cst nf = big T OP (filter (visP constP) (seq 0 nf)) (fun k => val T OP g k Z0).
Proof.
  pose proof (z0_labeling T g W fx LFX FO) as L0. unfold cst. rewrite (big_fold_left T OP fin OL); [|apply (ol_neutral _ _ OL)|intros; apply fin_val; auto].
  apply (op_unit_r T OP fin OL). apply (big_fin T OP fin OL). intros; apply fin_val; auto.
Qed.
Lemma cst_fin : fin (cst nf).
Proof. rewrite cst_big. apply (big_fin T OP fin OL). intros; apply fin_val. apply (z0_labeling T g W fx LFX FO). Qed.
Lemma semantics : forall z, labeling g z -> extends fx z ->
  match md with FIX => o_op OP (cst nf) (big T OP (filter (visP keepP) (seq 0 nf)) (fun k => val T OP g k z)) | DROP => big T OP (filter (visP keepP) (seq 0 nf)) (fun k => val T OP g k z) end
  = total OP (target g md fx) z.
Proof.
  intros z Hz Hx. destruct md eqn:EM; cbn [target].
  - destruct (KF eq_refl) as [K1 K2]. rewrite (total_big T OP fin OL g z W FG Hz). fold nf. rewrite (big_filter T OP fin OL (visP keepP) (seq 0 nf)) by (intros; apply fin_val; auto).
    assert (EQ : filter (fun k => negb (visP keepP k)) (seq 0 nf) = filter (visP constP) (seq 0 nf)).
    { apply filter_ext_in. intros k Hk. apply in_seq in Hk. unfold visP. destruct (nth_error (v_factors g) k) eqn:E; [rewrite K1; auto|]. apply nth_error_None in E. unfold nf in Hk. lia. }
    rewrite EQ, cst_big. rewrite (big_ext T OP (filter (visP constP) (seq 0 nf)) (fun k => val T OP g k Z0) (fun k => val T OP g k z)).
    + apply (ol_comm _ _ OL); apply (big_fin T OP fin OL); intros; apply fin_val; auto.
    + intros k Hk. apply filter_In in Hk. destruct Hk as [_ Hk]. symmetry. apply val_fixed; auto. unfold visP in *. destruct (nth_error (v_factors g) k); auto.
  - destruct (KD eq_refl) as [K1 K2]. rewrite total_kept_big by auto. f_equal. apply filter_ext_in. intros k _. unfold visP. destruct (nth_error (v_factors g) k); auto.
Qed.
End B.

(** ** buildModifiedModel *)
Section Model.
Variable fx : fixes.
Variable m : man T.
Hypothesis FB : fixed_by fx m.
Hypothesis HT : a_tent m = repeat false nf.
Notation fv := (free_vars fx).

Lemma fv_n : fv = filter (is_free fx) (seq 0 n).
Proof. unfold free_vars. rewrite (fb_len _ _ FB). auto. Qed.

Lemma varMap_ok : exists vm, foldM (fun (p : list nat * nat) v => b <- rd (a_fix m) v ;;
      if b : bool then Ret p else vm <- wr (fst p) v (snd p) ;; Ret (vm, S (snd p))) (seq 0 n) (repeat 0 n, 0) = Ret (vm, length fv) /\
  length vm = n /\ forall v, v < n -> is_free fx v = true -> nth_error fv (nth v vm 0) = Some v.
Proof.
  set (step := fun (p : list nat * nat) v => b <- rd (a_fix m) v ;; if b : bool then Ret p else vm <- wr (fst p) v (snd p) ;; Ret (vm, S (snd p))).
  assert (G : forall j, j <= n -> exists vm, foldM step (seq 0 j) (repeat 0 n, 0) = Ret (vm, length (filter (is_free fx) (seq 0 j))) /\ length vm = n /\
    forall v, v < j -> is_free fx v = true -> nth_error (filter (is_free fx) (seq 0 j)) (nth v vm 0) = Some v).
  { induction j as [|j IH]; intros Hj.
    - exists (repeat 0 n). split; auto. split; [apply repeat_length|lia].
    - destruct IH as (vm & E & L & H); [lia|]. rewrite seq_S, foldM_app, E. cbn [bind foldM]. rewrite Nat.add_0_l. unfold step at 1.
      rewrite (rd_f fx m FB j Hj). cbn [bind fst snd]. rewrite filter_app. cbn [filter]. destruct (is_free fx j) eqn:Fj; cbn [negb].
      + rewrite wr_Ret by lia. cbn [bind]. eexists. split; [rewrite app_length; cbn [length]; rewrite Nat.add_1_r; reflexivity|]. split; [rewrite length_upd; auto|].
        intros v Hv Fv. destruct (Nat.eq_dec v j) as [->|N].
        * rewrite nth_upd_eq by lia. apply nth_error_snoc_last.
        * rewrite nth_upd_neq by auto. rewrite nth_error_app1; [apply H; auto; lia|]. apply nth_error_Some. rewrite H by (auto; lia). discriminate.
      + rewrite app_nil_r. exists vm. split; auto. split; auto. intros v Hv Fv. apply H; auto. destruct (Nat.eq_dec v j) as [->|]; [congruence|lia]. }
  destruct (G n (le_n _)) as (vm & E & L & H). rewrite fv_n. exists vm. auto.
Qed.

Lemma shape_ok : forall vm, length vm = n -> (forall v, v < n -> is_free fx v = true -> nth_error fv (nth v vm 0) = Some v) ->
  foldM (fun sh v => b <- rd (a_fix m) v ;; if b : bool then Ret sh else i <- rd vm v ;; l <- rd (v_labels g) v ;; wr sh i l) (seq 0 n) (repeat 0 (length fv)) = Ret (labels_of g fv).
Proof.
  intros vm L HM. set (step := fun sh v => b <- rd (a_fix m) v ;; if b : bool then Ret sh else i <- rd vm v ;; l <- rd (v_labels g) v ;; wr sh i l).
  assert (NDV : NoDup fv) by (unfold free_vars; apply NoDup_filter, seq_NoDup).
  assert (G : forall j, j <= n -> exists sh, foldM step (seq 0 j) (repeat 0 (length fv)) = Ret sh /\ length sh = length fv /\
    forall v, v < j -> is_free fx v = true -> nth (nth v vm 0) sh 0 = nth v (v_labels g) 0).
  { induction j as [|j IH]; intros Hj.
    - exists (repeat 0 (length fv)). split; auto. split; [apply repeat_length|lia].
    - destruct IH as (sh & E & LS & H); [lia|]. rewrite seq_S, foldM_app, E. cbn [bind foldM]. rewrite Nat.add_0_l. unfold step at 1.
      rewrite (rd_f fx m FB j Hj). cbn [bind]. destruct (is_free fx j) eqn:Fj; cbn [negb].
      + rewrite (rd_nth _ vm j 0) by lia. cbn [bind]. rewrite (rd_nth _ (v_labels g) j 0) by auto. cbn [bind].
        assert (nth j vm 0 < length fv) by (apply nth_error_Some; rewrite HM by auto; discriminate).
        rewrite wr_Ret by lia. cbn [bind]. eexists. split; [reflexivity|]. split; [rewrite length_upd; auto|].
        intros v Hv Fv. destruct (Nat.eq_dec v j) as [->|N].
        * rewrite nth_upd_eq by lia. auto.
        * rewrite nth_upd_neq; [apply H; auto; lia|]. intros X. pose proof (HM v ltac:(lia) Fv) as A. pose proof (HM j Hj Fj) as B. congruence.
      + exists sh. split; auto. split; auto. intros v Hv Fv. apply H; auto. destruct (Nat.eq_dec v j) as [->|]; [congruence|lia]. }
  destruct (G n (le_n _)) as (sh & E & LS & H). rewrite E. f_equal. apply list_eq_nth; [rewrite labels_of_length; auto|].
  intros p Hp. unfold labels_of. rewrite LS in Hp. rewrite nth_map_in by auto. destruct (nth_error fv p) as [v|] eqn:Ep; [|apply nth_error_None in Ep; lia].
  rewrite (nth_error_nth _ _ 0 Ep). pose proof (nth_error_In _ _ Ep) as Iv. apply free_vars_In in Iv. destruct Iv as [Hv Fv]. rewrite (fb_len _ _ FB) in Hv.
  rewrite <- (H v Hv Fv). f_equal. apply (nodup_pos fv p (nth v vm 0) v); auto.
Qed.

Definition keepM (vis : list nat) : bool := match md with FIX => all_free fx vis || negb (all_fixed fx vis) | DROP => all_free fx vis end.
Definition constM (vis : list nat) : bool := match md with FIX => negb (keepM vis) | DROP => false end.
Lemma KDM : md = DROP -> (forall vis, keepM vis = all_free fx vis) /\ (forall vis, constM vis = false).
Proof. unfold keepM, constM. intros ->. auto. Qed.
Lemma KFM : md = FIX -> (forall vis, constM vis = negb (keepM vis)) /\ (forall vis, constM vis = true -> all_fixed fx vis = true).
Proof.
  unfold constM, keepM. intros ->. split; auto. intros vis H. destruct (all_fixed fx vis); auto. rewrite orb_true_r in H. discriminate.
Qed.

Lemma man_factors_ok : forall vm, length vm = n -> (forall v, v < n -> is_free fx v = true -> nth_error fv (nth v vm 0) = Some v) ->
  exists s, foldM (man_factor T OP g md m vm) (seq 0 nf) (mkSub (labels_of g fv) [], o_neutral OP) = Ret (s, cst fx constM nf) /\
    s_labels s = labels_of g fv /\ Forall2 (rep_ok T g fx fv) (map inl (filter (visP keepM) (seq 0 nf))) (s_factors s).
Proof.
  intros vm L HM. assert (SV : StronglySorted lt fv) by (unfold free_vars; apply sorted_filter_seq).
  assert (G : forall j, j <= nf -> exists s, foldM (man_factor T OP g md m vm) (seq 0 j) (mkSub (labels_of g fv) [], o_neutral OP) = Ret (s, cst fx constM j) /\
    s_labels s = labels_of g fv /\ Forall2 (rep_ok T g fx fv) (map inl (filter (visP keepM) (seq 0 j))) (s_factors s)).
  { induction j as [|j IH]; intros Hj.
    - eexists. split; [reflexivity|]. split; auto. constructor.
    - destruct IH as (s & E & LS & H2); [lia|]. rewrite seq_S, foldM_app, E. cbn [bind foldM]. rewrite Nat.add_0_l. unfold man_factor at 1.
      rewrite (rd_t m HT j Hj). cbn [bind]. destruct (nth_error (v_factors g) j) as [fc|] eqn:Ej; [|apply nth_error_None in Ej; unfold nf in Hj; lia].
      rewrite (rd_Ret _ _ _ _ Ej). cbn [bind]. unfold factor_facv. destruct (wf_nth _ _ _ _ W Ej) as [HS HB]. rewrite mapM_rd_shape by auto. cbn [bind]. fold (fvw T g fc).
      destruct (man_split_ok T g fx (fb_len _ _ FB) m (fb_fix _ _ FB) (fb_lablen _ _ FB) (fb_lab _ _ FB) vm L (fb_v2s _ _ FB) fv (fst fc) HS HB SV) as (inner & fixed & ES & SR).
      { intros v Hv Fv. apply HM; auto. rewrite Forall_forall in HB. auto. }
      rewrite ES. cbn [bind]. change (split_rel fx fv (fst fc) inner fixed) in SR.
      rewrite (split_free _ _ _ _ _ SR), (split_fixed' T g _ _ _ _ _ SR).
      assert (CS : cst fx constM (S j) = if constM (fst fc) then o_op OP (val T OP g j (z0 fx)) (cst fx constM j) else cst fx constM j).
      { unfold cst. rewrite filter_S, fold_left_app. unfold visP at 1. rewrite Ej. destruct (constM (fst fc)); auto. }
      rewrite CS, filter_app, map_app. cbn [filter]. unfold visP at 2. rewrite Ej.
      assert (ADD : forall h, rep_ok T g fx fv (inl j) (inner, h) -> exists s0, (s <- sub_addFactor T s h inner;; Ret (s, cst fx constM j)) = Ret (s0, cst fx constM j) /\
         s_labels s0 = labels_of g fv /\ Forall2 (rep_ok T g fx fv) (map inl (filter (visP keepM) (seq 0 j)) ++ [inl j]) (s_factors s0)).
      { intros h Hh. destruct (rep_add T g fx fv (inl j) inner h s _ Hh (proj1 (proj2 SR)) LS H2) as (s' & E1 & E2 & E3). rewrite E1. cbn [bind]. exists s'. auto. }
      pose proof (rep_view T g fx fv j fc inner fixed Ej SR) as RV.
      assert (EK : keepM (fst fc) = match md with FIX => all_free fx (fst fc) || negb (all_fixed fx (fst fc)) | DROP => all_free fx (fst fc) end) by reflexivity.
      assert (EC : constM (fst fc) = match md with FIX => negb (keepM (fst fc)) | DROP => false end) by reflexivity.
      rewrite EC, EK. destruct md.
      + destruct (all_free fx (fst fc)) eqn:AF; cbn [orb negb map app].
        * destruct (ADD _ (RV eq_refl)) as (s0 & E1 & E2 & E3). rewrite E1. cbn [bind]. exists s0. split; [reflexivity|auto].
        * destruct (all_fixed fx (fst fc)) eqn:AX; cbn [negb map app].
          -- rewrite (const_ok fx m FB j fc _ Ej AX). cbn [bind]. exists s. rewrite app_nil_r. auto.
          -- destruct (rep_fix T g fx fv j fc inner fixed Ej SR) as (v & EV & RF). rewrite EV. cbn [bind]. destruct (ADD _ RF) as (s0 & E1 & E2 & E3).
             rewrite E1. cbn [bind]. exists s0. split; [reflexivity|auto].
      + destruct (all_free fx (fst fc)) eqn:AF; cbn [map app].
        * destruct (ADD _ (RV eq_refl)) as (s0 & E1 & E2 & E3). rewrite E1. cbn [bind]. exists s0. split; [reflexivity|auto].
        * exists s. rewrite app_nil_r. auto. }
  apply (G nf (le_n _)).
Qed.

(** What a built model is. *)
Definition model_ok (s : subgm T) : Prop :=
  s_labels s = labels_of g fv /\ exists rs, Forall2 (rep_ok T g fx fv) rs (s_factors s) /\
  forall z, labeling g z -> extends fx z -> rfold T OP g rs z = total OP (target g md fx) z.

Lemma const_rep : forall vars c, rep_ok T g fx vars (inr c) ([], SView (mkFacv [] (fun _ => c))).
Proof. intros. reflexivity. Qed.

Lemma build_ok : exists s, buildModifiedModel T OP g md m = Ret (mkMan true (a_fix m) (a_lab m) (a_tent m) s (a_subs m) (a_v2s m)) /\ model_ok s.
Proof.
  unfold buildModifiedModel. fold n. fold nf. destruct varMap_ok as (vm & E1 & L & HM). rewrite E1. cbn [bind]. rewrite (shape_ok vm L HM). cbn [bind].
  destruct (man_factors_ok vm L HM) as (s & E2 & LS & H2). rewrite E2. cbn [bind].
  pose proof (semantics fx m FB keepM constM KDM KFM) as SEM.
  destruct md eqn:EM.
  - unfold add_const. destruct (rep_add T g fx fv (inr (cst fx constM nf)) [] _ s _ (const_rep fv _) (SSorted_nil _) LS H2) as (s' & E3 & LS' & H3).
    rewrite E3. cbn [bind]. exists s'. split; auto. split; auto. eexists. split; [exact H3|]. intros z Hz Hx. rewrite rfold_snoc, rfold_big by auto.
    cbn [rval]. rewrite EM, <- (SEM z Hz Hx). auto.
  - cbn [bind]. exists s. split; auto. split; auto. eexists. split; [exact H2|]. intros z Hz Hx. rewrite rfold_big by auto. rewrite EM, <- (SEM z Hz Hx). auto.
Qed.
End Model.
End S.
