(** Proofs for ReducedInference: infer(). *)
From Coq Require Import Sorted.
From Verif Require Import Base Values GmView GmViewSpec GmViewProofs ShapeSpec SubmodelModel SubmodelProps ManipulatorModel ManipulatorSpec ManipulatorProps TentacleModel TentacleSpec TentacleUseSpec TentacleProps RedModel RedSpec RedProofs.
Open Scope nat_scope.

(** ** Enumeration of labelings *)
Fixpoint labelings (ls : list nat) : list (list nat) :=
  match ls with [] => [[]] | k :: ls => flat_map (fun a => map (cons a) (labelings ls)) (seq 0 k) end.
Lemma labelings_In : forall ls y, In y (labelings ls) <-> in_shape ls y.
Proof.
  induction ls as [|k ls IH]; intros y; cbn [labelings].
  - split; [intros [<-|[]]; constructor|intros H; inversion H; left; reflexivity].
  - rewrite in_flat_map. split.
    + intros (a & Ha & Hy). apply in_seq in Ha. apply in_map_iff in Hy. destruct Hy as (y' & <- & Hy). constructor; [lia|]. apply IH. exact Hy.
    + intros H. inversion H as [|a ? y' ? Ha Hy]; subst. exists a. split; [apply in_seq; lia|]. apply in_map. apply IH. exact Hy.
Qed.
Section Best.
Variables (T : Type) (better : T -> T -> bool) (fin : T -> Prop).
Hypothesis IR : forall a, fin a -> better a a = false.
Hypothesis TR : forall a b c, fin a -> fin b -> fin c -> better a b = true -> better b c = true -> better a c = true.
Hypothesis NT : forall a b c, fin a -> fin b -> fin c -> better a b = false -> better b c = false -> better a c = false.
Definition pick (A : Type) (f : A -> T) (l : list A) (a0 : A) : A := fold_left (fun b a => if better (f a) (f b) then a else b) l a0.
Lemma pick_ok (A : Type) (f : A -> T) : forall l a0, fin (f a0) -> (forall a, In a l -> fin (f a)) ->
  In (pick A f l a0) (a0 :: l) /\ forall a, In a (a0 :: l) -> better (f a) (f (pick A f l a0)) = false.
Proof.
  induction l as [|a l IH]; intros a0 F0 F; [split; [left; reflexivity|intros a [<-|[]]; apply IR; exact F0]|]. cbn [pick fold_left]. fold (pick A f l).
  assert (Fa : fin (f a)) by (apply F; left; reflexivity). destruct (better (f a) (f a0)) eqn:B.
  - destruct (IH a Fa) as [I1 I2]; [intros; apply F; right; assumption|]. change (fold_left _ l a) with (pick A f l a). split; [right; exact I1|]. intros x [<-|Hx]; [|apply I2; exact Hx].
    destruct (better (f a0) (f (pick A f l a))) eqn:B2; [|reflexivity]. exfalso. assert (FP : fin (f (pick A f l a))) by (destruct I1 as [<-|I1]; [exact Fa|apply F; right; exact I1]).
    pose proof (TR _ _ _ Fa F0 FP B B2) as B3. rewrite (I2 a) in B3 by (left; reflexivity). discriminate.
  - destruct (IH a0 F0) as [I1 I2]; [intros; apply F; right; assumption|]. change (fold_left _ l a0) with (pick A f l a0). split; [destruct I1 as [<-|I1]; [left; reflexivity|right; right; exact I1]|]. intros x [<-|[<-|Hx]]; [apply I2; left; reflexivity| |apply I2; right; exact Hx].
    assert (FP : fin (f (pick A f l a0))) by (destruct I1 as [<-|I1]; [exact F0|apply F; right; exact I1]).
    apply (NT _ (f a0)); auto. apply I2. left. reflexivity.
Qed.
End Best.

Section Gen.
Variable T : Type.
Variable OP : oper T.
Variable ACC : accum T.
Variable fin : T -> Prop.
Hypothesis OL : op_laws fin OP.
Hypothesis AL : acc_laws fin OP ACC.
Variable g : gmv T.
Hypothesis W : wf_gmv g.
Hypothesis FG : fin_gmv fin g.
Variable solve_rooted : gmv T -> nat -> outcome (list T * list (list nat)).
Variable solve_free : gmv T -> outcome (list nat).
Variable MO : nat.
Hypothesis HMO : order_at_most MO g.
Hypothesis SR : rooted_exact fin OP ACC MO solve_rooted.
Hypothesis SF : free_exact fin OP ACC MO solve_free.
Variable par : riparam.
Variable partial : outcome (found T).
Variable inf : subgm T -> outcome (list nat * T).
Notation n := (length (v_labels g)).
Notation tstep := (tstep T OP g FIX solve_rooted solve_free).
Hypothesis HP : rp_persistency par = true -> exists f, partial = Ret f /\ finds g f.
Hypothesis HT : rp_tentacle par = true -> n <= length (v_factors g).
Hypothesis HL : labels_all fin OP inf.
Notation infer := (ri_infer T OP g solve_rooted solve_free par partial inf).

Definition known (f : found T) (v : nat) : option nat := if nth v (f_opt f) false then Some (nth v (f_arg f) 0) else None.
Lemma fix_run f : finds g f -> ri_fix T OP g solve_rooted solve_free f (tent_new T g) =
  (t <- foldM tstep (fix_ops (known f) (seq 0 n)) (tent_new T g) ;; Ret (length (fix_ops (known f) (seq 0 n)), t)).
Proof.
  intros (LA & LO & _). assert (F : Forall (fun v => v < n) (seq 0 n)) by (apply seq_lt; lia). unfold ri_fix.
  assert (G : forall l, Forall (fun v => v < n) l -> forall t k, foldM (fun (p : nat * tman T) i => o <- rd (f_opt f) i ;;
           if o : bool then a <- rd (f_arg f) i ;; t <- tstep (snd p) (TOp (OFix i a)) ;; Ret (S (fst p), t) else Ret p) l (k, t) =
     (t <- foldM tstep (fix_ops (known f) l) t ;; Ret (k + length (fix_ops (known f) l), t))); [|rewrite G by exact F; reflexivity].
  clear F. intros l F. induction F as [|i l Hi F IH]; intros t k; [cbn; rewrite Nat.add_0_r; reflexivity|]. cbn [foldM fix_ops flat_map]. rewrite (rd_nth _ _ i false) by lia. cbn [bind]. unfold known at 1 3. destruct (nth i (f_opt f) false).
  - rewrite (rd_nth _ _ i 0) by lia. cbn [bind app foldM fst snd]. destruct (tstep t _) as [t1| | |]; cbn [bind]; try reflexivity. fold (fix_ops (known f) l). rewrite IH. cbn [length]. rewrite Nat.add_succ_r. reflexivity.
  - cbn [bind app]. fold (fix_ops (known f) l). apply IH.
Qed.
Lemma subs_run stop : forall subs c args sb, Forall (usable fin OP) subs ->
  (ri_subs T OP inf stop subs c args sb = Ret None /\ exists k, stop k = true) \/
  exists rs, ri_subs T OP inf stop subs c args sb = Ret (Some (args ++ map fst rs, fold_left (fun acc e => o_op OP e acc) (map snd rs) sb)) /\
    Forall2 (fun gm r => inf gm = Ret r /\ in_shape (s_labels gm) (fst r)) subs rs.
Proof.
  induction subs as [|gm subs IH]; intros c args sb F; [right; exists []; cbn; rewrite app_nil_r; split; [reflexivity|constructor]|]. inversion F as [|? ? U F']; subst. destruct (HL gm U) as (a & b & E & S). cbn [ri_subs]. rewrite E. cbn [bind].
  destruct (stop c) eqn:ES; [left; split; [reflexivity|exists c; exact ES]|]. destruct (IH (Datatypes.S c) (args ++ [a]) (o_op OP b sb) F') as [[R K]|(rs & R & H)]; [left; auto|].
  right. exists ((a, b) :: rs). rewrite R. cbn [map fst snd fold_left]. rewrite <- app_assoc. split; [reflexivity|]. constructor; auto.
Qed.
Lemma best_exists : exists z, optimal OP ACC g z.
Proof.
  destruct (known_labeling T g W (fun _ => None)) as (z & LZ & _); [discriminate|]. destruct (pick_ok T (a_bop ACC) fin (al_irrefl _ _ _ AL) (al_trans _ _ _ AL) (al_negtrans _ _ _ AL) _ (total OP g) (labelings (v_labels g)) z) as [I1 I2].
  - apply (fin_total T OP fin OL g W FG). exact LZ.
  - intros y Hy. apply (fin_total T OP fin OL g W FG). apply labelings_In. exact Hy.
  - eexists. split; [|intros y LY; apply I2; right; apply labelings_In; exact LY]. destruct I1 as [<-|I1]; [exact LZ|apply labelings_In; exact I1].
Qed.
(** ** The result of one call *)
Definition all_right : Prop := rp_persistency par = true -> forall f, partial = Ret f -> right OP ACC g f.
Definition tight : Prop := forall gm a b, usable fin OP gm -> inf gm = Ret (a, b) -> has_value OP gm a b.
Definition finished (s : ri T) : Prop :=
  (all_right -> exact fin OP ACC inf -> optimal OP ACC g (ri_state s)) /\
  (all_right -> bounding fin OP ACC inf -> bounds OP ACC g (ri_bound s)) /\
  (tight -> ri_bound s = total OP g (ri_state s)).
Definition stopped (stop : nat -> bool) (s s' : ri T) : Prop :=
  (exists k, stop k = true) /\ ri_state s' = ri_state s /\
  (ri_bound s' = ri_bound s \/ exists f, rp_persistency par = true /\ partial = Ret f /\ f_bound f = Some (ri_bound s')).
Lemma value_same gm y e e' : has_value OP gm y e -> has_value OP gm y e' -> e = e'.
Proof. intros (g1 & E1) (g2 & E2). rewrite E1 in E2. injection E2 as _ ->. reflexivity. Qed.

Section Main.
Variable kn : nat -> option nat.
Hypothesis KN : forall v a, v < n -> kn v = Some a -> a < nth v (v_labels g) 0.
Definition main (stop : nat -> bool) (s : ri T) (k : nat) (t : tman T) (bd : T) : outcome (ri T) :=
  if k =? n then
    t <- tstep t (TOp OLock) ;;
    x <- tent_modifiedState2OriginalState T g t [] (ri_state s) ;;
    v <- ri_value T OP g (mkRi x bd) ;;
    Ret (mkRi x v)
  else
    t <- (if rp_tentacle par then tstep t TElim else tstep t (TOp OLock)) ;;
    if stop 0 then Ret (mkRi (ri_state s) bd)
    else if rp_components par then
      t <- tstep t (TOp OBuildSub) ;;
      r <- ri_subs T OP inf stop (a_subs (tm_man t)) 1 [] (o_neutral OP) ;;
      match r with
      | None => Ret (mkRi (ri_state s) bd)
      | Some (args, sb) => x <- tent_modifiedSubStates2OriginalState T g t args (ri_state s) ;; Ret (mkRi x sb)
      end
    else
      t <- tstep t (TOp OBuild) ;;
      ' (a, b) <- inf (a_mgm (tm_man t)) ;;
      x <- tent_modifiedState2OriginalState T g t a (ri_state s) ;;
      Ret (mkRi x b).
Definition done (s : ri T) : Prop :=
  ((exists z, optimal OP ACC g z /\ agrees_known T g kn z) -> exact fin OP ACC inf -> optimal OP ACC g (ri_state s)) /\
  ((exists z, optimal OP ACC g z /\ agrees_known T g kn z) -> bounding fin OP ACC inf -> bounds OP ACC g (ri_bound s)) /\
  (tight -> ri_bound s = total OP g (ri_state s)).
Notation ft := (fin_total T OP fin OL g W FG).
Lemma best_optimal x z : labeling g x -> optimal OP ACC g z -> a_bop ACC (total OP g z) (total OP g x) = false -> optimal OP ACC g x.
Proof. intros LX [LZ OZ] B. split; [exact LX|]. intros y LY. apply (al_negtrans _ _ _ AL _ (total OP g z)); auto using ft. Qed.
Lemma best_bounds b z : fin b -> optimal OP ACC g z -> a_bop ACC (total OP g z) b = false -> bounds OP ACC g b.
Proof. intros FB [LZ OZ] B y LY. apply (al_negtrans _ _ _ AL _ (total OP g z)); auto using ft. Qed.
Lemma main_ok stop s bd : labeling g (ri_state s) -> exists t0 s', foldM tstep (fix_ops kn (seq 0 n)) (tent_new T g) = Ret t0 /\
  main stop s (length (fix_ops kn (seq 0 n))) t0 bd = Ret s' /\ labeling g (ri_state s') /\ (done s' \/ ((exists k, stop k = true) /\ s' = mkRi (ri_state s) bd)).
Proof.
  intros LS. unfold main. destruct (Nat.eqb_spec (length (fix_ops kn (seq 0 n))) n) as [AF|NF].
  - destruct (all_fixed T OP ACC fin OL AL g W FG solve_rooted solve_free MO HMO SR SF kn KN (ri_state s) AF) as (t0 & t1 & x & E0 & E1 & EX & LX & XX). exists t0.
    rewrite E1. cbn [bind]. rewrite EX. cbn [bind]. unfold ri_value. cbn [ri_state]. rewrite v_evaluate_total by (auto; apply in_shape_length; exact LX). cbn [bind]. eexists. split; [exact E0|]. split; [reflexivity|]. cbn [ri_state ri_bound]. split; [exact LX|]. left.
    assert (K : (exists z, optimal OP ACC g z /\ agrees_known T g kn z) -> optimal OP ACC g x).
    { intros (z & OZ & KZ). replace x with z; [exact OZ|]. destruct OZ as [LZ _]. pose proof (in_shape_length _ _ LZ) as L1. pose proof (in_shape_length _ _ LX) as L2. apply (nth_ext _ _ 0 0); [congruence|]. intros v Hv.
      assert (Hn : v < n) by congruence. destruct (ops_length kn (seq 0 n)) as [_ X]. rewrite seq_length in X. specialize (X AF v). destruct (kn v) as [a|] eqn:Ea; [|exfalso; apply X; [apply in_seq; lia|reflexivity]].
      rewrite (KZ v a Hn Ea). symmetry. apply (proj1 (extends_known T g kn x L2) XX v a Hn Ea). }
    split; [auto|]. split; [|reflexivity]. intros R _. destruct (K R) as [_ OX]. intros z LZ. apply OX. exact LZ.
  - destruct (rp_components par) eqn:CC.
    + destruct (subs_part T OP ACC fin OL AL g W FG solve_rooted solve_free MO HMO SR SF kn KN (rp_tentacle par) (ri_state s) HT) as (t0 & t1 & t & E0 & E1 & E2 & US & H1 & H2). cbv zeta in *. exists t0.
      replace (if rp_tentacle par then tstep t0 TElim else tstep t0 (TOp OLock)) with (Ret t1) by (rewrite <- E1; destruct (rp_tentacle par); reflexivity). cbn [bind].
      destruct (stop 0) eqn:S0; [eexists; split; [exact E0|]; split; [reflexivity|]; split; [exact LS|]; right; split; [exists 0; exact S0|reflexivity]|].
      rewrite E2. cbn [bind]. destruct (subs_run stop (a_subs (tm_man t)) 1 [] (o_neutral OP) US) as [[R K]|(rs & R & FR)]; rewrite R; cbn [bind app].
      * eexists. split; [exact E0|]. split; [reflexivity|]. split; [exact LS|]. right. auto.
      * assert (FY : Forall2 (fun gm y => in_shape (s_labels gm) y) (a_subs (tm_man t)) (map fst rs)) by (clear - FR; induction FR as [|? ? ? ? [_ S] _ IH]; constructor; auto).
        destruct (H1 _ FY) as (x & es & EX & LX & KX & EV & FE & TE). rewrite EX. cbn [bind]. eexists. split; [exact E0|]. split; [reflexivity|]. cbn [ri_state ri_bound]. split; [exact LX|]. left.
        assert (FC : forall l a, Forall fin l -> fin a -> fin (fold_left (fun acc e => o_op OP e acc) l a)). { clear - OL. induction l as [|e l IH]; intros a F FA; auto. inversion F; subst. cbn [fold_left]. apply IH; auto. apply (ol_op _ _ OL); auto. }
        assert (NE := ol_neutral _ _ OL).
        split; [|split].
        -- intros (z & OZ & KZ) EXA. pose proof OZ as [LZ _]. destruct (H2 z LZ KZ) as (ys' & es' & HY' & EV' & FE' & B). apply (best_optimal x z LX OZ). apply (al_negtrans _ _ _ AL _ (combined T OP es')); auto using ft; [apply FC; auto|]. rewrite TE. unfold combined.
           apply (combined_mono T OP ACC fin OL AL); auto; [apply (al_irrefl _ _ _ AL); auto|].
           clear - FR US EXA EV EV' HY'. revert rs FR es EV ys' HY' es' EV'. induction US as [|gm subs U US IH]; intros rs FR es EV ys' HY' es' EV'; inversion FR as [|? r ? rs' [Er Sr] FR']; subst; inversion HY' as [|? y' ? ys'' Sy HY'']; subst; cbn [map combine] in EV, EV'; inversion EV; subst; inversion EV'; subst; constructor.
           ++ destruct r as [a b]. eapply (EXA gm a b U Er y'); eassumption.
           ++ eapply IH; eassumption.
        -- intros (z & OZ & KZ) BO. pose proof OZ as [LZ _]. destruct (H2 z LZ KZ) as (ys' & es' & HY' & EV' & FE' & B).
           assert (FB : Forall fin (map snd rs)). { clear - FR US BO. revert rs FR. induction US as [|gm subs U US IH]; intros rs FR; inversion FR as [|? [a b] ? rs' [Er Sr] FR']; subst; constructor; [apply (BO gm a b U Er)|apply IH; exact FR']. }
           apply (best_bounds _ z); [apply FC; auto|exact OZ|]. apply (al_negtrans _ _ _ AL _ (combined T OP es')); auto using ft; [apply FC; auto|apply FC; auto|]. unfold combined.
           apply (combined_mono T OP ACC fin OL AL); auto; [apply (al_irrefl _ _ _ AL); auto|].
           clear - FR US BO EV' HY'. revert rs FR ys' HY' es' EV'. induction US as [|gm subs U US IH]; intros rs FR ys' HY' es' EV'; inversion FR as [|? [a b] ? rs' [Er Sr] FR']; subst; inversion HY' as [|? y' ? ys'' Sy HY'']; subst; cbn [map combine] in EV'; inversion EV'; subst; constructor.
           ++ destruct (BO gm a b U Er) as [_ BB]. eapply BB; eassumption.
           ++ eapply IH; eassumption.
        -- intros TI. cbn [ri_state ri_bound]. rewrite TE. unfold combined. f_equal. clear - FR US TI EV. revert rs FR es EV. induction US as [|gm subs U US IH]; intros rs FR es EV; inversion FR as [|? [a b] ? rs' [Er Sr] FR']; subst; cbn [map combine fst snd] in *; inversion EV as [|? e ? es1 V1 EV1]; subst; [reflexivity|]. f_equal; [|eapply IH; eassumption].
           eapply value_same; [apply (TI gm a b U Er)|exact V1].
    + destruct (model_part T OP ACC fin OL AL g W FG solve_rooted solve_free MO HMO SR SF kn KN (rp_tentacle par) (ri_state s) HT) as (t0 & t1 & t & E0 & E1 & E2 & US & H1 & H2). cbv zeta in *. exists t0.
      replace (if rp_tentacle par then tstep t0 TElim else tstep t0 (TOp OLock)) with (Ret t1) by (rewrite <- E1; destruct (rp_tentacle par); reflexivity). cbn [bind].
      destruct (stop 0) eqn:S0; [eexists; split; [exact E0|]; split; [reflexivity|]; split; [exact LS|]; right; split; [exists 0; exact S0|reflexivity]|].
      rewrite E2. cbn [bind]. destruct (HL _ US) as (a & b & EI & SI). rewrite EI. cbn [bind]. destruct (H1 a SI) as (x & EX & LX & KX & VX). rewrite EX. cbn [bind]. eexists. split; [exact E0|]. split; [reflexivity|]. cbn [ri_state ri_bound]. split; [exact LX|]. left.
      split; [|split].
      * intros (z & OZ & KZ) EXA. pose proof OZ as [LZ _]. destruct (H2 z LZ KZ) as (y & e & SY & VY & FE & B). apply (best_optimal x z LX OZ). apply (al_negtrans _ _ _ AL _ e); auto using ft. eapply (EXA _ a b US EI y); eassumption.
      * intros (z & OZ & KZ) BO. pose proof OZ as [LZ _]. destruct (H2 z LZ KZ) as (y & e & SY & VY & FE & B). destruct (BO _ a b US EI) as [FB BB]. apply (best_bounds b z FB OZ). apply (al_negtrans _ _ _ AL _ e); auto using ft. apply (BB y e SY VY).
      * intros TI. eapply value_same; [apply (TI _ a b US EI)|exact VX].
Qed.
End Main.

Lemma main_eq stop s : infer stop s = (' (k, t, bd) <- (if rp_persistency par
                   then f <- partial ;; ' (k, t) <- ri_fix T OP g solve_rooted solve_free f (tent_new T g) ;; Ret (k, t, match f_bound f with Some b => b | None => ri_bound s end)
                   else Ret (0, tent_new T g, ri_bound s)) ;; main stop s k t bd).
Proof. reflexivity. Qed.
Lemma infer_ok stop s : labeling g (ri_state s) -> exists s', infer stop s = Ret s' /\ labeling g (ri_state s') /\ (finished s' \/ stopped stop s s').
Proof.
  intros LS. rewrite main_eq. destruct (rp_persistency par) eqn:P.
  - destruct (HP eq_refl) as (f & EF & FI). rewrite EF. cbn [bind]. rewrite (fix_run f FI). assert (KN : forall v a, v < n -> known f v = Some a -> a < nth v (v_labels g) 0).
    { intros v a Hv E. destruct FI as (_ & _ & FI). unfold known in E. specialize (FI v Hv). destruct (nth v (f_opt f) false); [|discriminate]. injection E as <-. auto. }
    destruct (main_ok (known f) KN stop s (match f_bound f with Some b => b | None => ri_bound s end) LS) as (t0 & s' & E0 & E1 & L' & D). rewrite E0. cbn [bind]. exists s'. split; [exact E1|]. split; [exact L'|].
    destruct D as [D|[K ->]].
    + left. destruct D as (D1 & D2 & D3). assert (X : all_right -> exists z, optimal OP ACC g z /\ agrees_known T g (known f) z).
      { intros R. destruct (R P f EF) as (z & OZ & KZ). exists z. split; [exact OZ|]. intros v a Hv E. unfold known in E. specialize (KZ v Hv). destruct (nth v (f_opt f) false); [|discriminate]. injection E as <-. auto. }
      split; [|split]; auto.
    + right. split; [exact K|]. split; [reflexivity|]. cbn [ri_bound]. destruct (f_bound f) as [b|] eqn:EB; [right; exists f; auto|left; reflexivity].
  - cbn [bind]. assert (KN : forall v a, v < n -> (fun _ : nat => @None nat) v = Some a -> a < nth v (v_labels g) 0) by discriminate.
    destruct (main_ok _ KN stop s (ri_bound s) LS) as (t0 & s' & E0 & E1 & L' & D). assert (FN : forall l, fix_ops (fun _ => None) l = []) by (induction l; auto). rewrite FN in E0, E1. cbn [foldM] in E0. injection E0 as <-. exists s'. split; [exact E1|]. split; [exact L'|].
    destruct D as [D|[K ->]]; [|right; split; [exact K|]; split; [reflexivity|left; reflexivity]]. left. destruct D as (D1 & D2 & D3).
    assert (X : exists z, optimal OP ACC g z). { destruct (best_exists) as [z OZ]. exists z. exact OZ. }
    destruct X as [z OZ]. assert (Y : exists z, optimal OP ACC g z /\ agrees_known T g (fun _ => None) z) by (exists z; split; [exact OZ|intros v a _ E; discriminate]). split; [|split]; auto.
Qed.
End Gen.
