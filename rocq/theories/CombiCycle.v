(** Proofs about CombiLP: the labeling of one cycle. *)
From Coq Require Import Sorted.
From Verif Require Import Base Values GmView GmViewSpec GmViewProofs ShapeSpec ShapeProofs MovemakerSpec SubmodelModel SubmodelProps ManipulatorModel ManipulatorSpec ManipulatorRep ManipulatorProofs ManipulatorProps.
From Verif Require Import TentacleProps RedSpec RedProofs CombiModel CombiSpec CombiProofs.

Section Cycle.
Variable T : Type.
Variables (OP : oper T) (ACC : accum T).
Variable fin : T -> Prop.
Hypothesis OL : op_laws fin OP.
Hypothesis AL : acc_laws fin OP ACC.
Variable gr : gmv T.
Hypothesis W : wf_gmv gr.
Hypothesis FG : fin_gmv fin gr.
Notation n := (length (v_labels gr)).
Variables (mask : list bool) (lp : list nat).
Hypothesis LM : length mask = n.
Hypothesis LP : labeling gr lp.
Definition kn (v : nat) : option nat := if nth v mask false then None else Some (nth v lp 0).
Definition fixops (l : list nat) : list manop := flat_map (fun v => match kn v with Some a => [OFix v a] | None => [] end) l.
Definition ops : list manop := OUnlock :: OFreeAll :: fixops (seq 0 n) ++ [OLock; OBuildSub].
Notation fx := (fixed_labels T gr kn).

Lemma in_labels : forall sh c k, in_shape sh c -> k < length sh -> nth k c 0 < nth k sh 0.
Proof. intros sh c k H. revert k. induction H as [|a c s sh L H IH]; intros k Hk; cbn in *; [lia|]. destruct k; auto. apply IH. lia. Qed.
Lemma lp_len : length lp = n.
Proof. apply (in_shape_length _ _ LP). Qed.
Lemma kn_ok : forall v a, v < n -> kn v = Some a -> a < nth v (v_labels gr) 0.
Proof. intros v a Hv. unfold kn. destruct (nth v mask false); [discriminate|]. intros [= <-]. apply in_labels; auto. Qed.
Lemma fix_sstep : forall l f, fold_left sstep (fixops l) (mkSS false f false false false) = mkSS false (fold_left (fun fx i => match kn i with Some a => upd fx i (Some a) | None => fx end) l f) false false false.
Proof. induction l as [|i l IH]; intros f; cbn [fixops flat_map fold_left]; [reflexivity|]. destruct (kn i) as [a|]; cbn [app fold_left]; apply IH. Qed.
Lemma fix_all : fold_left (fun fx i => match kn i with Some a => upd fx i (Some a) | None => fx end) (seq 0 n) (repeat None n) = fx.
Proof.
  apply (nth_ext _ _ None None).
  - rewrite length_fold_upd, repeat_length. unfold fixed_labels. rewrite map_length, seq_length. reflexivity.
  - intros v Hv. rewrite length_fold_upd, repeat_length in Hv. rewrite fold_upd by (rewrite repeat_length; exact Hv).
    replace (existsb (Nat.eqb v) (seq 0 n)) with true by (symmetry; apply existsb_exists; exists v; split; [apply in_seq; lia|apply Nat.eqb_refl]).
    unfold fixed_labels. rewrite (nth_indep (map kn (seq 0 n)) None (kn 0)) by (rewrite map_length, seq_length; exact Hv). rewrite map_nth, seq_nth by exact Hv. cbn [Nat.add].
    destruct (kn v); [reflexivity|]. apply nth_repeat.
Qed.
Lemma none_repeat : forall k, map (fun _ : option nat => @None nat) (repeat None k) = repeat None k.
Proof. induction k; cbn; congruence. Qed.
Lemma ops_state : fold_left sstep ops (s_new n) = mkSS true fx true false true.
Proof.
  unfold ops, s_new. cbn [fold_left sstep ss_fix ss_locked ss_ready ss_model ss_subs]. rewrite !none_repeat, fold_left_app, fix_sstep, fix_all. reflexivity.
Qed.
Lemma legal_fix : forall l s m rest, Forall (fun v => v < n) l -> (forall m', man_legal_run gr OP DROP (fold_left sstep (fixops l) s) m' rest) -> man_legal_run gr OP DROP s m (fixops l ++ rest).
Proof.
  induction l as [|v l IH]; intros s m rest F H; [apply H|]. inversion F as [|? ? Hv F']; subst. cbn [fixops flat_map]. fold (fixops l). destruct (kn v) as [a|] eqn:E; cbn [app].
  - cbn [man_legal_run]. split; [cbn; split; [auto|eapply kn_ok; eauto]|]. intros m' _. apply IH; auto. intros m''. specialize (H m''). cbn [fixops flat_map] in H. rewrite E in H. exact H.
  - apply IH; auto. intros m''. specialize (H m''). cbn [fixops flat_map] in H. rewrite E in H. exact H.
Qed.
Lemma ops_legal : man_legal_run gr OP DROP (s_new n) (man_new T gr) ops.
Proof.
  cbn [man_legal_run ops]. split; [exact I|]. intros m1 _. split; [exact I|]. intros m2 _. apply legal_fix; [apply Forall_forall; intros v Hv; apply in_seq in Hv; lia|].
  intros m3. cbn [sstep s_new ss_fix ss_locked ss_ready ss_model ss_subs]. rewrite !none_repeat. rewrite fix_sstep. cbn [man_legal_run]. split; [exact I|]. intros m4 _. split; [|intros; exact I]. reflexivity.
Qed.
Lemma build_run : ilp_build T OP gr mask lp = foldM (mstep T OP gr DROP) ops (man_new T gr).
Proof.
  unfold ilp_build, ops. cbn [foldM mstep]. destruct (unlock T (man_new T gr)) as [m1| | |]; auto. cbn [bind]. destruct (freeAllVariables T m1) as [m2| | |]; auto. cbn [bind]. rewrite foldM_app, LM.
  assert (G : forall l m, Forall (fun v => v < n) l -> foldM (fun m v => b <- rd mask v ;; if b : bool then Ret m else l <- rd lp v ;; fixVariable T m v l) l m = foldM (mstep T OP gr DROP) (fixops l) m).
  { intros l. induction l as [|v l IH]; intros m F; auto. inversion F as [|? ? Hv F']; subst. cbn [foldM fixops flat_map]. fold (fixops l). rewrite (rd_nth _ _ v false) by lia. cbn [bind]. unfold kn. destruct (nth v mask false).
    - cbn [bind app]. auto.
    - rewrite (rd_nth _ _ v 0) by (rewrite lp_len; auto). cbn [bind app foldM mstep]. destruct (fixVariable T m v (nth v lp 0)) as [m'| | |]; auto. cbn [bind]. auto. }
  rewrite G by (apply Forall_forall; intros v Hv; apply in_seq in Hv; lia). destruct (foldM (mstep T OP gr DROP) (fixops (seq 0 n)) m2) as [m3| | |]; auto. cbn [bind foldM mstep]. destruct (lock T gr m3) as [m4| | |]; auto. cbn [bind].
  destruct (buildModifiedSubModels T OP gr DROP m4); auto.
Qed.
Lemma build_ok : exists m, ilp_build T OP gr mask lp = Ret m /\ inv T OP fin gr DROP (mkSS true fx true false true) m.
Proof. rewrite build_run. rewrite <- ops_state. apply (run_ok T OP fin OL gr W FG DROP ops). - apply init_ok. - apply ops_legal. Qed.

(** The submodels can be solved; the labelings that an exact solver gives are translated to the best labeling with the fixed labels for the factors that are kept. *)
Variable ilp : nat -> nat -> subgm T -> option (list nat).
Definition outside (z : list nat) : Prop := forall v, v < n -> nth v mask false = false -> nth v z 0 = nth v lp 0.
Lemma extends_outside : forall z, length z = n -> (extends fx z <-> outside z).
Proof.
  intros z L. rewrite (extends_known T gr kn z L). unfold outside, kn. split.
  - intros H v Hv B. apply (H v (nth v lp 0) Hv). rewrite B. auto.
  - intros H v a Hv E. destruct (nth v mask false) eqn:B; [discriminate|]. injection E as <-. auto.
Qed.
Lemma subs_usable : forall m, inv T OP fin gr DROP (mkSS true fx true false true) m -> Forall (usable fin OP) (a_subs m).
Proof.
  intros m I. destruct (known_labeling T gr W kn kn_ok) as (z & LZ & XZ). destruct (subs_onto T OP fin OL gr DROP _ m z [] I eq_refl LZ XZ) as (ys & HY & _).
  destruct (subs_use T OP fin OL gr DROP _ m I eq_refl) as (_ & _ & _ & _ & _ & H1). cbv zeta in H1. set (subs := a_subs m) in *. apply Forall_forall. intros gm Hgm. destruct (In_nth_error _ _ Hgm) as (i & Ei).
  destruct (Forall2_nth_l _ _ _ _ _ _ _ HY Ei) as (yi & Eyi & Si). split; [eapply in_shape_positive; exact Si|]. intros y Sy.
  assert (LY : length ys = length subs) by (clear - HY; induction HY; cbn; congruence).
  assert (HY' : Forall2 (fun gm y => in_shape (s_labels gm) y) subs (upd ys i y)).
  { clear - HY Ei Sy. revert i Ei. induction HY as [|gm0 y0 subs ys H HY IH]; intros i Ei; [destruct i; discriminate|]. destruct i as [|i]; cbn in *; constructor; auto. injection Ei as ->. exact Sy. }
  destruct (H1 _ [] HY') as (x & es & _ & _ & _ & _ & EV & FE & _).
  assert (EY : nth_error (upd ys i y) i = Some y). { assert (i < length ys) by (rewrite LY; apply nth_error_Some; congruence). rewrite (nth_error_nth' _ []) by (rewrite length_upd; assumption). rewrite nth_upd_eq by assumption. reflexivity. }
  destruct (Forall2_nth_l _ _ _ _ _ _ _ EV (nth_error_combine _ _ _ _ _ _ _ Ei EY)) as (e & Ee & V). exists e. split; [exact V|]. rewrite Forall_forall in FE. apply FE. eapply nth_error_In. exact Ee.
Qed.
Lemma ilp_subs_ok : ilp_exact fin OP ACC ilp -> forall i subs j ys, Forall (usable fin OP) subs -> ilp_subs T ilp i j subs = Some ys ->
  Forall2 (fun gm y => in_shape (s_labels gm) y /\ forall y' e e', in_shape (s_labels gm) y' -> has_value OP gm y e -> has_value OP gm y' e' -> a_bop ACC e' e = false) subs ys.
Proof.
  intros EX i subs. induction subs as [|gm subs IH]; intros j ys F E; cbn in E; [injection E as <-; constructor|]. inversion F as [|? ? U F']; subst.
  destruct (ilp i j gm) as [a|] eqn:Ea; [|discriminate]. destruct (ilp_subs T ilp i (S j) subs) as [r|] eqn:Er; [|discriminate]. injection E as <-. constructor; [|eapply IH; eauto]. apply (EX i j); auto.
Qed.
Lemma ilp_subs_complete : ilp_complete fin OP ilp -> forall i subs j, Forall (usable fin OP) subs -> ilp_subs T ilp i j subs <> None.
Proof.
  intros CO i subs. induction subs as [|gm subs IH]; intros j F; cbn; [discriminate|]. inversion F as [|? ? U F']; subst. specialize (CO i j gm U). destruct (ilp i j gm); [|congruence]. specialize (IH (S j) F'). destruct (ilp_subs T ilp i (S j) subs); [discriminate|auto].
Qed.
Lemma Forall2_map_r : forall A B (P Q : A -> B -> Prop) l r, (forall a b, P a b -> Q a b) -> Forall2 P l r -> Forall2 Q l r.
Proof. intros A B P Q l r H F. induction F; constructor; auto. Qed.
Lemma cycle_ok : ilp_exact fin OP ACC ilp -> forall m i ys, inv T OP fin gr DROP (mkSS true fx true false true) m -> ilp_subs T ilp i 0 (a_subs m) = Some ys ->
  exists x, modifiedSubStates2OriginalState T gr m ys [] = Ret x /\ labeling gr x /\ outside x /\
    forall y, labeling gr y -> outside y -> a_bop ACC (total OP (kept gr fx) y) (total OP (kept gr fx) x) = false.
Proof.
  intros EX m i ys I E. pose proof (ilp_subs_ok EX i _ 0 ys (subs_usable m I) E) as HB.
  destruct (subs_use T OP fin OL gr DROP _ m I eq_refl) as (_ & _ & _ & _ & _ & H1). cbv zeta in H1. cbn [ss_fix] in H1.
  destruct (H1 ys [] (Forall2_map_r _ _ _ _ _ _ (fun a b P => proj1 P) HB)) as (x & es & EX' & LX & XX & _ & EV & FE & CE).
  exists x. split; auto. split; auto. split; [apply extends_outside; auto; apply (in_shape_length _ _ LX)|]. intros y LY OY.
  destruct (subs_onto T OP fin OL gr DROP _ m y [] I eq_refl LY) as (ys' & HY' & E'). { cbn [ss_fix]. apply extends_outside; auto. apply (in_shape_length _ _ LY). }
  destruct (H1 ys' [] HY') as (y' & es' & EY' & _ & _ & _ & EV' & FE' & CE'). rewrite EY' in E'. injection E' as ->. cbn [target] in CE, CE'. rewrite <- CE, <- CE'.
  apply (combined_mono T OP ACC fin OL AL); auto; [apply (ol_neutral _ _ OL)..|apply (al_irrefl _ _ _ AL); apply (ol_neutral _ _ OL)|].
  clear - HB HY' EV EV'. revert ys ys' es es' HB HY' EV EV'. induction (a_subs m) as [|s subs IH]; intros ys ys' es es' HB HY' EV EV'.
  - inversion HB; subst. inversion HY'; subst. cbn in *. inversion EV; subst. inversion EV'; subst. constructor.
  - inversion HB as [|? y ? ysr P HB']; subst. inversion HY' as [|? y2 ? ysr2 P2 HY2]; subst. cbn in *. inversion EV as [|? e ? esr V EVr]; subst. inversion EV' as [|? e2 ? esr2 V2 EVr2]; subst. constructor; [|eapply IH; eauto].
    destruct P as [P1 P3]. apply (P3 y2); auto.
Qed.

(** ** Optimality *)
Notation isfree := (fun fc : list nat * (list nat -> T) => forallb (is_free fx) (fst fc)).
Lemma free_mask : forall v, v < n -> is_free fx v = nth v mask false.
Proof.
  intros v Hv. unfold is_free, fixed_labels. rewrite (nth_indep (map kn (seq 0 n)) None (kn 0)) by (rewrite map_length, seq_length; auto). rewrite map_nth, seq_nth by auto. cbn [Nat.add]. unfold kn. destruct (nth v mask false); auto.
Qed.
Definition fold_val (x : list nat) (l : list (list nat * (list nat -> T))) (a : T) : T := fold_left (fun acc fc => o_op OP (snd fc (at_vars x (fst fc))) acc) l a.
Definition okx (x : list nat) (l : list (list nat * (list nat -> T))) : Prop := Forall (fun fc => fin (snd fc (at_vars x (fst fc)))) l.
Lemma fold_fin : forall x l a, okx x l -> fin a -> fin (fold_val x l a).
Proof. intros x l. induction l as [|fc l IH]; intros a F A; auto. inversion F; subst. cbn. apply IH; auto. apply (ol_op _ _ OL); auto. Qed.
Lemma fold_acc : forall x l a b, okx x l -> fin a -> fin b -> fold_val x l (o_op OP a b) = o_op OP a (fold_val x l b).
Proof.
  intros x l. induction l as [|fc l IH]; intros a b F A B; auto. inversion F as [|? ? V F']; subst. cbn. fold (fold_val x l).
  rewrite (ol_assoc _ _ OL), (ol_comm _ _ OL _ a), <- (ol_assoc _ _ OL) by (auto; apply (ol_op _ _ OL); auto). apply (IH a (o_op OP (snd fc (at_vars x (fst fc))) b)); auto. apply (ol_op _ _ OL); auto.
Qed.
Lemma fold_split : forall x p l a b, okx x l -> fin a -> fin b -> fold_val x l (o_op OP a b) = o_op OP (fold_val x (filter p l) a) (fold_val x (filter (fun fc => negb (p fc)) l) b).
Proof.
  intros x p l. induction l as [|fc l IH]; intros a b F A B; auto. inversion F as [|? ? V F']; subst. cbn [filter fold_val fold_left]. fold (fold_val x l).
  pose proof (ol_op _ _ OL) as OO. destruct (p fc); cbn [negb fold_left].
  - rewrite (ol_assoc _ _ OL) by auto. apply IH; auto.
  - replace (o_op OP (snd fc (at_vars x (fst fc))) (o_op OP a b)) with (o_op OP a (o_op OP (snd fc (at_vars x (fst fc))) b)).
    + apply IH; auto.
    + rewrite !(ol_assoc _ _ OL) by auto. f_equal. apply (ol_comm _ _ OL); auto.
Qed.
Lemma fold_mono : forall x y l a b, okx x l -> okx y l -> fin a -> fin b -> a_bop ACC b a = false ->
  (forall fc, In fc l -> a_bop ACC (snd fc (at_vars y (fst fc))) (snd fc (at_vars x (fst fc))) = false) -> a_bop ACC (fold_val y l b) (fold_val x l a) = false.
Proof.
  intros x y l. induction l as [|fc l IH]; intros a b FX FY A B AB H; auto. inversion FX; subst. inversion FY; subst. cbn. pose proof (ol_op _ _ OL) as OO. apply IH; auto; [|intros fc' I'; apply H; right; auto].
  apply (al_negtrans _ _ _ AL _ (o_op OP (snd fc (at_vars y (fst fc))) a)); auto.
  - rewrite (al_mono _ _ _ AL); auto.
  - rewrite !(ol_comm _ _ OL _ a) by auto. rewrite (al_mono _ _ _ AL); auto. apply H. left. auto.
Qed.
Lemma fold_ext : forall x y l a, (forall fc, In fc l -> at_vars x (fst fc) = at_vars y (fst fc)) -> fold_val x l a = fold_val y l a.
Proof. intros x y l. induction l as [|fc l IH]; intros a H; auto. cbn. rewrite (H fc) by (left; auto). apply IH. intros fc' I. apply H. right. auto. Qed.
Lemma okx_all : forall x l, labeling gr x -> incl l (v_factors gr) -> okx x l.
Proof. intros x l LX IN. apply Forall_forall. intros fc I. unfold fin_gmv in FG. rewrite Forall_forall in FG. apply FG; auto. Qed.

(** The labels of the LP are best for all factors with a variable that is not masked. *)
Hypothesis LB : forall fc, In fc (v_factors gr) -> (exists v, In v (fst fc) /\ nth v mask false = false) ->
  forall c, in_shape (at_vars (v_labels gr) (fst fc)) c -> a_bop ACC (snd fc c) (snd fc (at_vars lp (fst fc))) = false.
Lemma at_in : forall y fc, labeling gr y -> In fc (v_factors gr) -> in_shape (at_vars (v_labels gr) (fst fc)) (at_vars y (fst fc)).
Proof. intros y fc LY I. pose proof (vis_lt T gr W fc I) as F. unfold at_vars. induction F as [|v vis Hv F IH]; constructor; auto. apply in_labels; auto. Qed.
Lemma solved_optimal : forall x, labeling gr x -> outside x ->
  (forall y, labeling gr y -> outside y -> a_bop ACC (total OP (kept gr fx) y) (total OP (kept gr fx) x) = false) ->
  (forall v, nth v mask false = true -> (exists w, touch T gr v w /\ nth w mask false = false) -> nth v lp 0 = nth v x 0) ->
  optimal OP ACC gr x.
Proof.
  intros x LX OX BX MA. split; auto. intros y LY. pose proof (ol_neutral _ _ OL) as NE. pose proof (ol_op _ _ OL) as OO.
  set (y' := map (fun v => if nth v mask false then nth v y 0 else nth v lp 0) (seq 0 n)).
  assert (NY : forall v, v < n -> nth v y' 0 = if nth v mask false then nth v y 0 else nth v lp 0).
  { intros v Hv. unfold y'. set (f := fun v => if nth v mask false then nth v y 0 else nth v lp 0). rewrite (nth_indep (map f (seq 0 n)) 0 (f 0)) by (rewrite map_length, seq_length; auto). rewrite (map_nth f), seq_nth by auto. reflexivity. }
  assert (LY' : labeling gr y').
  { assert (GL : forall sh c, length c = length sh -> (forall v, v < length sh -> nth v c 0 < nth v sh 0) -> in_shape sh c).
    { intros sh. induction sh as [|s sh IH]; intros [|a c] L H; try discriminate; constructor. - apply (H 0). cbn; lia. - apply IH; [cbn in L; lia|]. intros v Hv. apply (H (S v)). cbn; lia. }
    apply GL; [unfold y'; rewrite map_length, seq_length; auto|]. intros v Hv. rewrite NY by auto. destruct (nth v mask false); apply in_labels; auto. }
  assert (OY' : outside y') by (intros v Hv B; rewrite NY by auto; rewrite B; auto).
  specialize (BX y' LY' OY'). unfold total in *. cbn [kept v_factors] in BX. fold (fold_val y (v_factors gr) (o_neutral OP)). fold (fold_val x (v_factors gr) (o_neutral OP)).
  assert (EN : o_neutral OP = o_op OP (o_neutral OP) (o_neutral OP)) by (symmetry; apply (ol_unit _ _ OL); auto). rewrite EN.
  rewrite (fold_split y isfree), (fold_split x isfree) by (auto; apply okx_all; auto; apply incl_refl).
  fold (fold_val y' (filter isfree (v_factors gr)) (o_neutral OP)) in BX. fold (fold_val x (filter isfree (v_factors gr)) (o_neutral OP)) in BX.
  assert (I1 : incl (filter isfree (v_factors gr)) (v_factors gr)) by (intros fc I; apply filter_In in I; tauto).
  assert (I2 : incl (filter (fun fc => negb (isfree fc)) (v_factors gr)) (v_factors gr)) by (intros fc I; apply filter_In in I; tauto).
  rewrite (fold_ext y y') at 1.
  2: { intros fc I. apply filter_In in I. destruct I as [I FR]. rewrite forallb_forall in FR. unfold at_vars. apply map_ext_in. intros v Iv. pose proof (vis_lt T gr W fc I) as F. rewrite Forall_forall in F. rewrite NY by auto.
       specialize (FR v Iv). rewrite free_mask in FR by auto. rewrite FR. auto. }
  assert (FX : forall z, labeling gr z -> forall p, incl p (v_factors gr) -> fin (fold_val z p (o_neutral OP))) by (intros z LZ p IP; apply fold_fin; auto; apply okx_all; auto).
  apply (al_negtrans _ _ _ AL _ (o_op OP (fold_val x (filter isfree (v_factors gr)) (o_neutral OP)) (fold_val y (filter (fun fc => negb (isfree fc)) (v_factors gr)) (o_neutral OP)))); auto.
  - rewrite !(ol_comm _ _ OL _ (fold_val y _ _)) by auto. rewrite (al_mono _ _ _ AL); auto.
  - rewrite (al_mono _ _ _ AL) by auto. apply fold_mono; auto; [apply okx_all; auto..|apply (al_irrefl _ _ _ AL); auto|].
    intros fc I. apply filter_In in I. destruct I as [I NF]. assert (NF' : isfree fc = false) by (destruct (isfree fc); auto). clear NF.
    pose proof (vis_lt T gr W fc I) as F. rewrite Forall_forall in F.
    assert (U : exists u, In u (fst fc) /\ nth u mask false = false).
    { cbv beta in NF'. revert NF'. revert F. generalize (fst fc). intros vis F E. induction vis as [|v vis IH]; [discriminate E|]. cbn [fst forallb] in E. destruct (is_free fx v) eqn:B; [|exists v; split; [left; auto|]; rewrite <- free_mask; auto; apply F; left; auto].
      cbn [andb] in E. destruct IH as (u & I3 & B3); auto; [intros; apply F; right; auto|]. exists u. split; [right|]; auto. }
    assert (EA : at_vars x (fst fc) = at_vars lp (fst fc)).
    { unfold at_vars. apply map_ext_in. intros v Iv. destruct (nth v mask false) eqn:B; [|apply OX; auto]. symmetry. apply MA; auto. destruct U as (u & Iu & Bu). exists u. split; auto. exists fc. split; auto. split; auto.
      destruct (fst fc) as [|a [|b r]]; [destruct Iv| |cbn; lia]. destruct Iv as [->|[]]. destruct Iu as [->|[]]. congruence. }
    rewrite EA. apply LB; auto. apply at_in; auto.
Qed.
End Cycle.
