(** Proofs about Gibbs sampling. *)
From Verif Require Import Base Values GmView GmViewSpec GmViewProofs ShapeSpec ShapeProofs MovemakerModel MovemakerSpec MovemakerProofs GibbsModel GibbsSpec.

Lemma copy_gen : forall (x : list nat) k j b, k + j <= length x -> length b = length x ->
  exists b', foldM (fun b v => l <- rd x v ;; wr b v l) (seq k j) b = Ret b' /\ length b' = length x /\ forall v, nth v b' 0 = if (k <=? v) && (v <? k + j) then nth v x 0 else nth v b 0.
Proof.
  intros x k j. revert k. induction j as [|j IH]; intros k b L LB; cbn [seq foldM].
  - exists b. split; auto. split; auto. intros v. destruct (Nat.leb_spec k v), (Nat.ltb_spec v (k + 0)); cbn; auto. lia.
  - rewrite (rd_nth _ x k 0) by lia. cbn [bind]. rewrite wr_Ret by lia. cbn [bind]. destruct (IH (S k) (upd b k (nth k x 0))) as (b' & E & L' & H); [lia|rewrite length_upd; auto|]. exists b'. split; auto. split; auto. intros v. rewrite H.
    destruct (Nat.eq_dec v k) as [->|D].
    + replace (S k <=? k) with false by (symmetry; apply Nat.leb_gt; lia). cbn [andb]. rewrite nth_upd_eq by lia. replace (k <=? k) with true by (symmetry; apply Nat.leb_le; lia). replace (k <? k + S j) with true by (symmetry; apply Nat.ltb_lt; lia). auto.
    + rewrite nth_upd_neq by auto. destruct (Nat.leb_spec (S k) v), (Nat.ltb_spec v (S k + j)), (Nat.leb_spec k v), (Nat.ltb_spec v (k + S j)); cbn; auto; lia.
Qed.
Lemma copy_ok : forall (x b : list nat) n, length x = n -> length b = n -> foldM (fun b v => l <- rd x v ;; wr b v l) (seq 0 n) b = Ret x.
Proof.
  intros x b n LX LB. destruct (copy_gen x 0 n b) as (b' & E & L & H); [lia|lia|]. rewrite E. f_equal. apply (nth_ext _ _ 0 0); auto. intros v Hv. rewrite H. replace (v <? 0 + n) with true by (symmetry; apply Nat.ltb_lt; lia). auto.
Qed.

Section Proofs.
Variable T : Type.
Variable OP : oper T.
Variable mult : bool.
Variable ACC : accum T.
Variable eqv : T -> T -> bool.
Variable fin : T -> Prop.
Hypothesis OL : op_laws fin OP.
Hypothesis AL : acc_laws fin OP ACC.
Hypothesis EQ : forall a b, eqv a b = true -> a = b.
Variable g : gmv T.
Hypothesis W : wf_gmv g.
Hypothesis FG : fin_gmv fin g.
Notation n := (length (v_labels g)).
Hypothesis NV : 0 < n.
Variable par : gpar.

Lemma tot_fin : forall x, labeling g x -> fin (total OP g x).
Proof.
  intros x LX. unfold total. assert (F : Forall (fun fc => fin (snd fc (at_vars x (fst fc)))) (v_factors g)) by (unfold fin_gmv in FG; rewrite Forall_forall in *; intros fc I; apply FG; auto).
  generalize (ol_neutral _ _ OL). generalize (o_neutral OP). induction F as [|fc l H F IH]; intros a A; auto. cbn. apply IH. apply (ol_op _ _ OL); auto.
Qed.
Definition gok (s : gb T) : Prop := mm_ok T OP g (gb_mm s) /\ labeling g (gb_best s).
Lemma select_ok : forall dr it, exists v, select T g par dr it = Ret v /\ v < n /\ (gp_cyclic par = true -> 2 <= n -> v = 1).
Proof.
  intros dr it. unfold select. destruct (gp_cyclic par).
  - unfold lt_pred. destruct n as [|[|k]] eqn:E; [lia| |]; cbn.
    + exists 0. split; auto. split; [lia|]. intros; lia.
    + exists 1. split; auto. split; [lia|auto].
  - unfold random. destruct (Nat.eqb_spec n 0) as [NZ|NZ]; [lia|]. eexists. split; [reflexivity|]. split; [apply Nat.mod_upper_bound; auto|discriminate].
Qed.
Lemma positive_label : forall v, v < n -> 0 < nth v (v_labels g) 0.
Proof. intros v Hv. destruct W as [_ P]. unfold positive in P. rewrite Forall_forall in P. apply P. apply nth_In. auto. Qed.
Lemma step_ok : forall dr s it, gok s -> exists s' called, gb_step T OP mult ACC eqv g par dr s it = Ret (s', called) /\ gok s' /\ gb_in s' = gb_in s /\
  (called = false -> s' = s) /\
  (gp_cyclic par = true -> 2 <= n -> forall v, v <> 1 -> nth v (mm_state (gb_mm s')) 0 = nth v (mm_state (gb_mm s)) 0) /\
  ((a_bop ACC (mm_value (gb_mm s')) (mm_value (gb_mm s)) = false /\ gb_best s' = gb_best s /\ gb_value s' = gb_value s) \/
   (called = true /\ a_bop ACC (mm_value (gb_mm s')) (mm_value (gb_mm s)) = true /\
    ((a_bop ACC (mm_value (gb_mm s')) (gb_value s) = true /\ gb_best s' = mm_state (gb_mm s') /\ gb_value s' = mm_value (gb_mm s')) \/
     ((a_bop ACC (mm_value (gb_mm s')) (gb_value s) = false \/ mm_value (gb_mm s') = gb_value s) /\ gb_best s' = gb_best s /\ gb_value s' = gb_value s)))).
Proof.
  intros dr s it [MO LB]. unfold gb_step. destruct (select_ok dr it) as (v & ES & Hv & CY). rewrite ES. cbn [bind]. rewrite (rd_nth _ _ v 0) by auto. cbn [bind].
  pose proof (positive_label v Hv) as PV. unfold random. destruct (Nat.eqb_spec (nth v (v_labels g) 0) 0) as [NZ|NZ]; [lia|]. cbn [bind]. set (label := Nat.modulo (dr_lab dr it) (nth v (v_labels g) 0)).
  assert (HL : label < nth v (v_labels g) 0) by (apply Nat.mod_upper_bound; auto). clearbody label.
  pose proof MO as (FO & LS & BU & EN). assert (LN : length (mm_state (gb_mm s)) = n) by (apply (in_shape_length _ _ LS)). rewrite (rd_nth _ _ v 0) by lia. cbn [bind].
  pose proof (tot_fin _ LS) as FT.
  destruct (Nat.eqb_spec label (nth v (mm_state (gb_mm s)) 0)) as [E|D].
  { exists s, false. split; auto. split; [split; auto|]. split; auto. split; auto. split; auto. left. split; auto. apply (al_irrefl _ _ _ AL). unfold mm_value. rewrite EN. auto. }
  assert (DV : distinct_vars g [v]) by (split; [constructor; [intros []|constructor]|constructor; auto]).
  assert (DL : in_shape (labels_of g [v]) [label]) by (constructor; [auto|constructor]).
  rewrite (valueAfterMove_ok T OP mult fin OL g W FG) by auto. cbn [bind]. pose proof (move_ok T OP mult fin OL g W FG (gb_mm s) [v] [label] MO DV DL) as EM. cbv zeta in EM.
  pose proof (relabel_labeling T g (mm_state (gb_mm s)) [v] [label] LS DL) as LX. pose proof (moved_ok T OP g (gb_mm s) _ MO LX) as MO'.
  set (x' := relabel (mm_state (gb_mm s)) [v] [label]) in *.
  assert (CX : gp_cyclic par = true -> 2 <= n -> forall u, u <> 1 -> nth u x' 0 = nth u (mm_state (gb_mm s)) 0).
  { intros C N u U. apply relabel_off. intros [A|[]]. specialize (CY C N). congruence. }
  destruct (a_bop ACC (total OP g x') (mm_value (gb_mm s))) eqn:B1.
  - rewrite EM. cbn [bind]. unfold store_best. cbn [mm_state].
    destruct (a_bop ACC (total OP g x') (gb_value s) && negb (eqv (total OP g x') (gb_value s))) eqn:B2.
    + rewrite (in_shape_length _ _ LB). rewrite (copy_ok x' (gb_best s) n) by (try apply (in_shape_length _ _ LX); try apply (in_shape_length _ _ LB)). cbn [bind].
      eexists _, true. split; [reflexivity|]. split; [split; auto|]. split; auto. split; [discriminate|]. split; auto. right. split; auto. cbn [gb_mm gb_best gb_value]. split; [exact B1|]. left. apply andb_prop in B2. split; [apply B2|]. auto.
    + cbn [bind]. eexists _, true. split; [reflexivity|]. split; [split; auto|]. split; auto. split; [discriminate|]. split; auto. right. split; auto. cbn [gb_mm gb_best gb_value]. split; [exact B1|]. right. split; auto.
      cbn. apply Bool.andb_false_iff in B2. destruct B2 as [B2|B2]; [left; auto|]. right. apply Bool.negb_false_iff in B2. apply EQ in B2. auto.
  - destruct (dr_flip dr it (total OP g x') (mm_value (gb_mm s))).
    + rewrite EM. cbn [bind]. eexists _, true. split; [reflexivity|]. split; [split; auto|]. split; auto. split; [discriminate|]. split; [first [exact CX|auto]|]. left. cbn [gb_mm gb_best gb_value]. split; auto.
    + eexists _, true. split; [reflexivity|]. split; [split; auto|]. split; auto. split; [discriminate|]. split; [first [exact CX|auto]|]. left. cbn [gb_mm gb_best gb_value]. split; auto. apply (al_irrefl _ _ _ AL). unfold mm_value. rewrite EN. auto.
Qed.
(** The best value is that of the best labeling, and the current labeling is not better. *)
Definition tracked (s : gb T) : Prop := gb_value s = total OP g (gb_best s) /\ a_bop ACC (mm_value (gb_mm s)) (gb_value s) = false.
Notation tot := (gp_steps par + gp_burn par).
Lemma loop_ok : forall dr fuel it s seen, gok s -> gb_in s = true -> tot - it <= fuel -> exists s' new,
  gb_loop T OP mult ACC eqv g par dr fuel it s seen = Ret (s', seen ++ new) /\ gok s' /\ 2 * length new <= S (tot - it) /\ Forall (labeling g) new /\
  (gp_cyclic par = true -> 2 <= n -> Forall (fun x => forall v, v <> 1 -> nth v x 0 = nth v (mm_state (gb_mm s)) 0) (mm_state (gb_mm s') :: new)) /\
  (tracked s -> tracked s' /\ best_among OP ACC g (gb_best s') (gb_best s :: new)) /\
  ((forall a, fin a -> a_bop ACC a (gb_value s) = false) -> gb_best s' = gb_best s /\ gb_value s' = gb_value s).
Proof.
  intros dr fuel. induction fuel as [|fuel IH]; intros it s seen GO GI LF.
  - assert (Z : (it <? tot) = false) by (apply Nat.ltb_ge; lia). exists s, []. cbn [gb_loop]. rewrite Z, app_nil_r. split; auto. split; auto. split; [cbn; lia|]. split; auto. split; [intros; constructor; auto|].
    split; [|auto]. intros [TR TR2]. split; [split; auto|]. split; [left; auto|]. intros y [<-|[]]. apply (al_irrefl _ _ _ AL). apply tot_fin. apply GO.
  - cbn [gb_loop]. destruct (Nat.ltb_spec it tot) as [L|L].
    2: { exists s, []. rewrite app_nil_r. split; auto. split; auto. split; [cbn; lia|]. split; auto. split; [intros; constructor; auto|].
         split; [|auto]. intros [TR TR2]. split; [split; auto|]. split; [left; auto|]. intros y [<-|[]]. apply (al_irrefl _ _ _ AL). apply tot_fin. apply GO. }
    destruct (step_ok dr s it GO) as (s1 & called & E & GO1 & GI1 & NC & CY & BE). rewrite E. cbn [bind]. rewrite GI in GI1.
    pose proof GO as ((_ & LS & _ & EN) & LB). pose proof GO1 as ((_ & LS1 & _ & EN1) & LB1). pose proof (tot_fin _ LS) as F1. pose proof (tot_fin _ LS1) as F2. pose proof (tot_fin _ LB) as F3.
    assert (TK : tracked s -> tracked s1 /\ (gb_best s1 = gb_best s \/ called = true /\ gb_best s1 = mm_state (gb_mm s1)) /\ a_bop ACC (gb_value s) (gb_value s1) = false).
    { intros [TR TR2]. destruct BE as [(B1 & B2 & B3)|(BC & B1 & [(B2 & B3 & B4)|(B2 & B3 & B4)])]; unfold tracked.
      - rewrite B2, B3. split; [split; auto|]. 2: { split; auto. rewrite TR. apply (al_irrefl _ _ _ AL). auto. }
        apply (al_negtrans _ _ _ AL _ (mm_value (gb_mm s))); auto; unfold mm_value; rewrite ?EN, ?EN1, ?TR; auto.
      - rewrite B3, B4. split; [split; [unfold mm_value; rewrite EN1; auto|apply (al_irrefl _ _ _ AL); unfold mm_value; rewrite EN1; auto]|]. split; auto.
        destruct (a_bop ACC (gb_value s) (mm_value (gb_mm s1))) eqn:X; auto. assert (Y : a_bop ACC (gb_value s) (gb_value s) = true) by (apply (al_trans _ _ _ AL _ (mm_value (gb_mm s1))); auto; unfold mm_value; rewrite ?EN1, ?TR; auto).
        rewrite (al_irrefl _ _ _ AL) in Y; [discriminate|]. rewrite TR. auto.
      - rewrite B3, B4. split; [split; auto|]. 2: { split; auto. rewrite TR. apply (al_irrefl _ _ _ AL). auto. }
        destruct B2 as [B2|B2]; auto. rewrite B2. rewrite TR. apply (al_irrefl _ _ _ AL). auto. }
    assert (NU : (forall a, fin a -> a_bop ACC a (gb_value s) = false) -> gb_best s1 = gb_best s /\ gb_value s1 = gb_value s).
    { intros H. destruct BE as [(B1 & B2 & B3)|(BC & B1 & [(B2 & B3 & B4)|(B2 & B3 & B4)])]; auto. rewrite H in B2; [discriminate|]. unfold mm_value. rewrite EN1. auto. }
    destruct called.
    + unfold gb_arg. rewrite GI1. destruct (IH (S (S it)) s1 (seen ++ [mm_state (gb_mm s1)]) GO1 GI1) as (s' & new & E' & GO' & LN & FL & CN & TN & NN); [lia|].
      exists s', (mm_state (gb_mm s1) :: new). rewrite E', <- app_assoc. split; auto. split; auto. split; [cbn; lia|]. split; [constructor; auto|]. split.
      { intros C N. specialize (CN C N). specialize (CY C N). inversion CN as [|? ? C1 C2]; subst. constructor; [intros v D; rewrite C1, CY by auto; auto|]. constructor; [auto|]. rewrite Forall_forall in *. intros x I v D. rewrite C2 by auto. auto. }
      split; [|intros H; destruct (NU H) as [U1 U2]; destruct NN as [V1 V2]; [rewrite U2; auto|rewrite V1, V2; auto]].
      intros TR. destruct (TK TR) as (TR1 & BB & BM). destruct (TN TR1) as (TR' & BI & BA). split; auto. assert (FB' : fin (total OP g (gb_best s'))) by (apply tot_fin; apply GO').
      destruct TR1 as [R1 R2]. destruct TR as [R3 R4]. rewrite R1, R3 in BM. split.
      * destruct BI as [<-|BI]; [|right; right; auto]. destruct BB as [->|[_ ->]]; [left; auto|right; left; auto].
      * intros y [<-|[<-|I]]; [| |apply BA; right; auto].
        -- apply (al_negtrans _ _ _ AL _ (total OP g (gb_best s1))); auto; [apply tot_fin; auto|]. apply BA. left. auto.
        -- apply (al_negtrans _ _ _ AL _ (total OP g (gb_best s1))); auto; [apply tot_fin; auto| |apply BA; left; auto]. rewrite <- R1, <- EN1. auto.
    + assert (s1 = s) by auto. subst s1. destruct (IH (S it) s seen GO1 GI) as (s' & new & E' & GO' & LN & FL & CN & TN & NN); [lia|]. exists s', new. split; auto. split; auto. split; [lia|]. auto.
Qed.
Lemma infer_ok : forall dr s, gok s -> exists s' seen, gb_infer T OP mult ACC eqv g par dr s = Ret (s', seen) /\ gok s' /\ gb_in s' = false /\ 2 * length seen <= S tot /\ Forall (labeling g) seen /\
  (gp_cyclic par = true -> 2 <= n -> Forall (fun x => forall v, v <> 1 -> nth v x 0 = nth v (mm_state (gb_mm s)) 0) (mm_state (gb_mm s') :: seen)) /\
  (tracked s -> tracked s' /\ best_among OP ACC g (gb_best s') (gb_best s :: seen)) /\
  ((forall a, fin a -> a_bop ACC a (gb_value s) = false) -> gb_best s' = gb_best s /\ gb_value s' = gb_value s).
Proof.
  intros dr s GO. unfold gb_infer. destruct (loop_ok dr tot 0 (mkGb (gb_mm s) (gb_best s) (gb_value s) true) [] GO eq_refl) as (s' & new & E & GO' & LN & FL & CN & TN & NN); [lia|].
  rewrite E. cbn [bind app]. exists (mkGb (gb_mm s') (gb_best s') (gb_value s') false), new. split; auto. split; auto. split; auto. split; [lia|]. auto.
Qed.
Hypothesis SO : gstart_ok g par.
Lemma new_ok : exists s, gb_new T OP ACC g par = Ret s /\ gok s /\ gb_in s = false /\ (gp_start par <> [] -> tracked s /\ gb_best s = gp_start par) /\ (gp_start par = [] -> gb_best s = repeat 0 n /\ gb_value s = a_ineutral ACC).
Proof.
  unfold gb_new. destruct (mm_new_ok T OP g W) as (m & E & MO & ES). rewrite E. cbn [bind]. destruct SO as [Z|LS].
  - rewrite Z. cbn. eexists. split; [reflexivity|]. split; [split; auto; apply zero_labeling; auto|]. split; auto. split; [contradiction|]. auto.
  - pose proof (in_shape_length _ _ LS) as L. destruct (Nat.eqb_spec (length (gp_start par)) 0) as [NZ|NZ]; [lia|]. cbn [negb]. rewrite L, Nat.eqb_refl. destruct (mm_initialize_ok T OP g W m (gp_start par) MO LS) as (m' & E' & MO' & ES'). rewrite E'. cbn [bind].
    eexists. split; [reflexivity|]. split; [split; auto|]. split; auto. split.
    + intros _. split; auto. unfold tracked. cbn [gb_mm gb_best gb_value]. destruct MO' as (_ & _ & _ & EN). split; [unfold mm_value; rewrite EN, ES'; auto|]. apply (al_irrefl _ _ _ AL). unfold mm_value. rewrite EN, ES'. apply tot_fin. auto.
    + intros Z. rewrite Z in L. cbn in L. lia.
Qed.
Lemma reset_ok : forall s, gok s -> exists s', gb_reset T OP g par s = Ret s' /\ gok s' /\ gb_in s' = gb_in s /\ (gp_start par <> [] -> tracked s' /\ gb_best s' = gp_start par) /\ (gp_start par = [] -> gb_best s' = repeat 0 n /\ gb_value s' = gb_value s).
Proof.
  intros s [MO LB]. unfold gb_reset. destruct SO as [Z|LS].
  - rewrite Z. cbn. destruct (mm_reset_ok T OP g W (gb_mm s) MO) as (m & E & MO' & ES). rewrite E. cbn [bind]. rewrite (in_shape_length _ _ LB). eexists. split; [reflexivity|]. split; [split; auto; apply zero_labeling; auto|]. split; auto. split; [contradiction|]. auto.
  - pose proof (in_shape_length _ _ LS) as L. destruct (Nat.eqb_spec (length (gp_start par)) 0) as [NZ|NZ]; [lia|]. cbn [negb]. rewrite L, Nat.eqb_refl. destruct (mm_initialize_ok T OP g W (gb_mm s) (gp_start par) MO LS) as (m' & E' & MO' & ES'). rewrite E'. cbn [bind].
    eexists. split; [reflexivity|]. split; [split; auto|]. split; auto. split.
    + intros _. split; auto. unfold tracked. cbn [gb_mm gb_best gb_value]. destruct MO' as (_ & _ & _ & EN). split; [unfold mm_value; rewrite EN, ES'; auto|]. apply (al_irrefl _ _ _ AL). unfold mm_value. rewrite EN, ES'. apply tot_fin. auto.
    + intros Z. rewrite Z in L. cbn in L. lia.
Qed.
Lemma start_ok : forall s x, gok s -> labeling g x -> exists s', gb_setStartingPoint T OP g s x = Ret s' /\ gok s' /\ gb_in s' = gb_in s /\ tracked s' /\ gb_best s' = x.
Proof.
  intros s x [MO LB] LX. unfold gb_setStartingPoint. destruct (mm_initialize_ok T OP g W (gb_mm s) x MO LX) as (m' & E' & MO' & ES'). rewrite E'. cbn [bind]. rewrite ES'. rewrite copy_ok by (try apply (in_shape_length _ _ LX); apply (in_shape_length _ _ LB)). cbn [bind].
  eexists. split; [reflexivity|]. split; [split; auto|]. split; auto. split; auto. unfold tracked. cbn [gb_mm gb_best gb_value]. destruct MO' as (_ & _ & _ & EN). split; [unfold mm_value; rewrite EN, ES'; auto|]. apply (al_irrefl _ _ _ AL). unfold mm_value. rewrite EN, ES'. apply tot_fin. auto.
Qed.
Lemma run_ok : forall h, Forall (glegal g) h -> exists s, gb_run T OP mult ACC eqv g par h = Ret s /\ gok s /\ gb_in s = false /\ (started par h = true -> tracked s) /\
  ((forall a, fin a -> a_bop ACC a (a_ineutral ACC) = false) -> gp_start par = [] -> Forall (fun o => match o with GStart _ => False | _ => True end) h -> gb_best s = repeat 0 n /\ gb_value s = a_ineutral ACC).
Proof.
  intros h. induction h as [|o h IH] using rev_ind; intros FL.
  - unfold gb_run. cbn [foldM]. destruct new_ok as (s & E & GO & GI & H1 & H2). exists s. rewrite E. cbn. split; auto. split; auto. split; auto. split; [|auto]. intros S. apply H1. unfold started in S. cbn in S. intros Z. rewrite Z in S. discriminate.
  - apply Forall_app in FL. destruct FL as [FH FO]. inversion FO as [|? ? LO _]; subst. destruct (IH FH) as (s & E & GO & GI & TR & NO). unfold gb_run in E |- *.
    apply bind_inv in E. destruct E as (s0 & E0 & E). rewrite E0. cbn [bind]. rewrite foldM_app, E. cbn [bind foldM]. unfold started in *. rewrite fold_left_app. cbn [fold_left].
    assert (NF : forall P : gop T -> Prop, Forall P (h ++ [o]) -> Forall P h /\ P o) by (intros P F; apply Forall_app in F; destruct F as [F1 F2]; inversion F2; auto).
    destruct o as [|x|dr]; cbn [gb_do].
    + destruct (reset_ok s GO) as (s' & E' & GO' & GI' & H1 & H2). rewrite E'. cbn [bind]. exists s'. split; auto. split; auto. split; [congruence|]. split.
      * intros S. apply H1. intros Z. rewrite Z in S. discriminate.
      * intros NB Z F. apply NF in F. destruct (H2 Z) as [A B]. rewrite A, B. split; auto. apply NO; auto. apply F.
    + destruct (start_ok s x GO LO) as (s' & E' & GO' & GI' & H1 & H2). rewrite E'. cbn [bind]. exists s'. split; auto. split; auto. split; [congruence|]. split; auto. intros NB Z F. apply NF in F. destruct F as [_ []].
    + destruct (infer_ok dr s GO) as (s' & seen & E' & GO' & GI' & _ & _ & _ & TN & NN). rewrite E'. cbn [bind fst]. exists s'. split; auto. split; auto. split; auto. split; [intros S; apply TN; auto|]. intros NB Z F. apply NF in F. destruct (NO NB Z (proj1 F)) as [A B]. rewrite B in NN. destruct (NN NB) as [A' B']. rewrite A', B'. auto.
Qed.
End Proofs.

(** ** Marginals *)
Lemma leqb_eq : forall a b, leqb a b = true <-> a = b.
Proof.
  induction a as [|x a IH]; intros [|y b]; cbn; try (split; [discriminate|discriminate]); [tauto|]. rewrite Bool.andb_true_iff, Nat.eqb_eq, IH. split; [intros [-> ->]; auto|intros [= -> ->]; auto].
Qed.
Fixpoint adds (h : list gvop) : list (list nat * list gvop) :=
  match h with [] => [] | VAdd vis :: h => (vis, h) :: adds h | _ :: h => adds h end.
Lemma adds_snoc : forall h o, adds (h ++ [o]) = map (fun a => (fst a, snd a ++ [o])) (adds h) ++ match o with VAdd vis => [(vis, [])] | _ => [] end.
Proof. induction h as [|o' h IH]; intros o; cbn; [destruct o; auto|]. destruct o' as [vis|x a b]; cbn; rewrite IH; auto. Qed.
Lemma sampled_app : forall vis c h h', sampled vis c (h ++ h') = sampled vis c h + sampled vis c h'.
Proof. intros vis c h h'. induction h as [|o h IH]; cbn; auto. destruct o as [vis'|x a []]; auto. rewrite IH. lia. Qed.
Lemma adds_split : forall h h1 vis h2, h = h1 ++ VAdd vis :: h2 -> nth_error (adds h) (added h1) = Some (vis, h2).
Proof. intros h h1. revert h. induction h1 as [|o h1 IH]; intros h vis h2 ->; cbn; auto. destruct o as [v|x a b]; cbn; apply IH; auto. Qed.
Definition counts (m : list nat * (list nat -> nat)) (a : list nat * list gvop) : Prop := fst m = fst a /\ forall c, snd m c = sampled (fst a) c (snd a).
Lemma read_cache : forall x vis k j cache, k + j <= length vis -> length vis <= length cache -> Forall (fun v => v < length x) vis ->
  exists cache', foldM (fun cache k => v <- rd vis k ;; l <- rd x v ;; wr cache k l) (seq k j) cache = Ret cache' /\ length cache' = length cache /\
    forall i, nth i cache' 0 = if (k <=? i) && (i <? k + j) then nth (nth i vis 0) x 0 else nth i cache 0.
Proof.
  intros x vis k j. revert k. induction j as [|j IH]; intros k cache L LC F; cbn [seq foldM].
  - exists cache. split; auto. split; auto. intros i. destruct (Nat.leb_spec k i), (Nat.ltb_spec i (k + 0)); cbn; auto. lia.
  - assert (FV : nth k vis 0 < length x) by (rewrite Forall_forall in F; apply F; apply nth_In; lia). rewrite (rd_nth _ vis k 0) by lia. cbn [bind]. rewrite (rd_nth _ x _ 0) by auto. cbn [bind]. rewrite wr_Ret by lia. cbn [bind].
    destruct (IH (S k) (upd cache k (nth (nth k vis 0) x 0))) as (c' & E & L' & H); [lia|rewrite length_upd; auto|auto|]. exists c'. rewrite length_upd in L'. split; auto. split; auto. intros i. rewrite H. destruct (Nat.eq_dec i k) as [->|D].
    + replace (S k <=? k) with false by (symmetry; apply Nat.leb_gt; lia). cbn [andb]. rewrite nth_upd_eq by lia. replace (k <=? k) with true by (symmetry; apply Nat.leb_le; lia). replace (k <? k + S j) with true by (symmetry; apply Nat.ltb_lt; lia). auto.
    + rewrite nth_upd_neq by auto. destruct (Nat.leb_spec (S k) i), (Nat.ltb_spec i (S k + j)), (Nat.leb_spec k i), (Nat.ltb_spec i (k + S j)); cbn; auto; lia.
Qed.
Lemma nth_firstn : forall A (l : list A) k i d, i < k -> nth i (firstn k l) d = nth i l d.
Proof. intros A l. induction l as [|a l IH]; intros k i d H; [rewrite firstn_nil; auto|]. destruct k; [lia|]. destruct i; cbn; auto. apply IH. lia. Qed.
Lemma count_ok : forall x cache m, length (fst m) <= length cache -> Forall (fun v => v < length x) (fst m) ->
  exists cache' tab, gv_count x cache m = Ret (cache', (fst m, tab)) /\ length cache' = length cache /\ forall c, tab c = (if list_eq_dec Nat.eq_dec (at_vars x (fst m)) c then 1 else 0) + snd m c.
Proof.
  intros x cache [vis tab] L F. cbn [fst snd] in *. unfold gv_count. cbn [fst snd]. destruct (read_cache x vis 0 (length vis) cache) as (c' & E & L' & H); [lia|auto|auto|]. rewrite E. cbn [bind]. eexists c', _. split; [reflexivity|]. split; auto.
  intros c. cbn beta. assert (EQ : firstn (length vis) c' = at_vars x vis).
  { unfold at_vars. apply (nth_ext _ _ 0 (nth 0 x 0)); [rewrite firstn_length, map_length; lia|]. intros i Hi. rewrite firstn_length in Hi. rewrite nth_firstn by lia. rewrite H. rewrite (map_nth (fun v => nth v x 0)). replace (i <? 0 + length vis) with true by (symmetry; apply Nat.ltb_lt; lia). auto. }
  rewrite EQ. destruct (list_eq_dec Nat.eq_dec (at_vars x vis) c) as [<-|D].
  - replace (leqb _ _) with true by (symmetry; apply leqb_eq; auto). auto.
  - destruct (leqb c (at_vars x vis)) eqn:B; auto. apply leqb_eq in B. congruence.
Qed.
Lemma counts_loop : forall x acc ba n ms as0 cache pre, length x = n -> ba = VCall x acc false -> Forall2 counts ms as0 -> Forall (fun m : list nat * (list nat -> nat) => length (fst m) <= length cache /\ Forall (fun v => v < n) (fst m)) ms ->
  exists cache' ms', foldM (fun (p : list nat * list (list nat * (list nat -> nat))) m => ' (cache, m) <- gv_count x (fst p) m ;; Ret (cache, snd p ++ [m])) ms (cache, pre) = Ret (cache', pre ++ ms') /\ length cache' = length cache /\
    Forall2 counts ms' (map (fun a => (fst a, snd a ++ [ba])) as0) /\ map fst ms' = map fst ms.
Proof.
  intros x acc ba n ms as0 cache pre LX -> F2. revert cache pre. induction F2 as [|m a ms as0 [C1 C2] F2 IH]; intros cache pre FL; cbn [foldM].
  - exists cache, []. rewrite app_nil_r. split; auto. split; auto. split; [constructor|auto].
  - inversion FL as [|? ? [L1 L2] FL']; subst. destruct (count_ok x cache m L1 L2) as (c' & tab & E & L' & H). cbn [fst snd]. rewrite E. cbn [bind]. destruct (IH c' (pre ++ [(fst m, tab)])) as (c2 & ms' & E2 & LC & FM & EF); [rewrite L'; auto|].
    cbn [snd fst] in *. rewrite E2. exists c2, ((fst m, tab) :: ms'). rewrite <- app_assoc. split; auto. split; [congruence|]. split; [|cbn; f_equal; auto]. cbn. constructor; auto. split; auto. intros c. cbn [fst snd]. rewrite H, sampled_app, C2, C1. cbn [sampled]. lia.
Qed.
Lemma marg_ok : forall n h, Forall (vlegal n) h -> exists s, gv_run h = Ret s /\ gv_samples s = samples h /\ gv_accepted s = accepted_samples h /\ gv_accepted s + gv_rejected s = gv_samples s /\
  Forall2 counts (gv_marginals s) (adds h) /\ Forall (fun m : list nat * (list nat -> nat) => length (fst m) <= length (gv_cache s) /\ Forall (fun v => v < n) (fst m)) (gv_marginals s).
Proof.
  intros n h. induction h as [|o h IH] using rev_ind; intros FL.
  - exists gv_new. repeat split; auto; constructor.
  - apply Forall_app in FL. destruct FL as [FH FO]. inversion FO as [|? ? LO _]; subst. destruct (IH FH) as (s & E & E1 & E2 & E3 & F2 & FM). unfold gv_run in *. rewrite foldM_app, E. cbn [bind foldM].
    unfold samples, accepted_samples in *. rewrite !filter_app, !app_length, adds_snoc. destruct o as [vis|x a b]; cbn [gv_do].
    + cbn [bind]. eexists. split; [reflexivity|]. cbn [gv_addMarginal fst gv_samples gv_accepted gv_rejected gv_marginals gv_cache filter length app]. rewrite !Nat.add_0_r. split; auto. split; auto. split; auto.
      set (cache := if length (gv_cache s) <? length vis then _ else _). assert (LC : length (gv_cache s) <= length cache /\ length vis <= length cache).
      { unfold cache. destruct (Nat.ltb_spec (length (gv_cache s)) (length vis)); [rewrite app_length, repeat_length; lia|lia]. } split.
      * apply Forall2_app; [|constructor; [split; auto|constructor]]. clear - F2. induction F2 as [|m a ms l [C1 C2] F2 IH]; cbn; constructor; auto. split; auto. intros c. cbn [fst snd]. rewrite sampled_app, C2. cbn. lia.
      * apply Forall_app. split; [|constructor; [split; [apply LC|exact LO]|constructor]]. rewrite Forall_forall in *. intros m I. destruct (FM m I). split; auto. lia.
    + cbn in LO. unfold gv_call. destruct b.
      * cbn [bind]. exists s. cbn [filter length app]. destruct a; cbn [length]; rewrite !Nat.add_0_r, app_nil_r; (split; [auto|]; split; [auto|]; split; [auto|]; split; [auto|]; split; [|auto]); clear - F2; induction F2 as [|m a' ms l [C1 C2] F2 IH]; cbn; constructor; auto; split; auto; intros c; cbn [fst snd]; rewrite sampled_app, C2; cbn; lia.
      * destruct (counts_loop x a _ n (gv_marginals s) (adds h) (gv_cache s) [] LO eq_refl F2 FM) as (c' & ms' & EL & LC & F2' & EF). rewrite EL. cbn [bind app]. eexists. split; [reflexivity|]. cbn [gv_samples gv_accepted gv_rejected gv_marginals gv_cache].
        rewrite app_nil_r. cbn [filter]. split; [cbn [length]; lia|]. split; [destruct a; cbn [length]; lia|]. split; [destruct a; lia|]. split; auto.
        rewrite LC. clear - FM EF. revert ms' EF. induction FM as [|m ms H FM IH]; intros [|m' ms'] EF; try discriminate; [constructor|]. cbn in EF. injection EF as E1 E2. constructor; [rewrite E1; auto|apply IH; auto].
Qed.
