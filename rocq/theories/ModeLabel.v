(** The labels that constrainedOptimum takes from marginals. *)
From Coq Require Import Sorted Permutation Relations.
From Verif Require Import Base Values GmView GmViewSpec ShapeSpec ShapeProofs IndexingProofs UtilModel FactorOpsModel FactorOpsSpec FactorOpsProofs FactorOpsTables FactorOpsAcc FactorOpsProps MpModel MpSpec MpSum MpState MpMessages MpTables ModeModel ModeSelect.

Lemma override_map : forall (x cf : nat -> nat) kv v, override x kv (map cf kv) v = if in_dec Nat.eq_dec v kv then cf v else x v.
Proof.
  intros x cf kv v. induction kv as [|w kv IH]; [auto|]. cbn [map override]. destruct (Nat.eqb_spec v w) as [->|N].
  - destruct (in_dec Nat.eq_dec w (w :: kv)) as [|NI]; auto. destruct NI. left; auto.
  - rewrite IH. destruct (in_dec Nat.eq_dec v kv), (in_dec Nat.eq_dec v (w :: kv)); auto; [destruct n; right; auto|]. destruct i; congruence.
Qed.
Lemma existsb_eqb : forall v l, existsb (Nat.eqb v) l = true <-> In v l.
Proof. intros. rewrite existsb_exists. split; [intros (x & H & K); apply Nat.eqb_eq in K; congruence|intros H; exists v; split; auto; apply Nat.eqb_refl]. Qed.
Lemma not_existsb_eqb : forall v l, negb (existsb (Nat.eqb v) l) = true <-> ~ In v l.
Proof. intros. rewrite negb_true_iff, <- not_true_iff_false, existsb_eqb. tauto. Qed.
Lemma sorted_single : forall vi u, StronglySorted lt vi -> (forall v, In v vi <-> v = u) -> vi = [u].
Proof.
  intros [|a vi] u S H; [destruct (proj2 (H u) eq_refl)|]. assert (a = u) as -> by (apply H; left; auto). f_equal. destruct vi as [|b vi]; auto.
  assert (b = u) as -> by (apply H; right; left; auto). inversion S as [|? ? _ F]; subst. inversion F; subst. lia.
Qed.

Section Label.
Variable T : Type.
Variable fin : T -> Prop.
Variable OP : oper T.
Variable ACC : accum T.
Hypothesis SL : semiring_laws fin OP ACC.
Hypothesis AL : acc_laws fin OP ACC.
Hypothesis SE : acc_select fin ACC.
Variable g : gmv T.
Hypothesis WF : wf_gmv g.
Hypothesis FG : fin_gmv fin g.
Variables vone v0 vzero : T.
Hypothesis F1 : fin vone.
Variable maxLabel : nat.
Notation n := (length (v_labels g)).
Notation m := (length (v_factors g)).
Notation nl := (labels_at g).
Hypothesis ML : forall v, v < n -> nl v <= maxLabel.
Notation op := (o_op OP).
Notation bop := (a_bop ACC).
Notation vars := (vars T OP g).
Notation okl := (okl T g).
Notation inside := (inside T g).
Notation E := (value_at OP g).
Notation best_in := (best_in T OP ACC g).
Notation tab := (tab T g vone).
Let P0 : positive (v_labels g) := POS T g WF.

(** A factor that holds marginals of the variables [S]. *)
Definition holds (S : list nat) (o : outcome (ifactor T)) : Prop :=
  exists out c, o = Ret (mkIF S (mkTable (map nl S) out)) /\ length out = size_of (map nl S) /\ fin c /\ Forall fin out /\ marginal_table OP ACC g S out c.
Variable marginal : nat -> outcome (ifactor T).
Variable factorMarginal : nat -> outcome (ifactor T).
Hypothesis HM : forall v, v < n -> holds [v] (marginal v).
Hypothesis HF : forall f, f < m -> vars f <> [] -> holds (vars f) (factorMarginal f).

Lemma single_state : forall u t H x0, factor_is T nl t [u] H -> u < n -> (forall x, fin (H x)) ->
  exists v l, AccumulateAllState T (a_neutral ACC) bop (a_op ACC) (t_fn T t) = Ret (v, [l]) /\ l < nl u /\
    forall k, k < nl u -> bop (H (set x0 u k)) (H (set x0 u l)) = false.
Proof.
  intros u t H x0 [R LT] Hu FH. rewrite (acc_all_state_spec T (a_neutral ACC) bop (a_op ACC) nl (t_fn T t) [u] H x0 R) by discriminate. cbn zeta.
  set (l := map (fun c => (H (override x0 [u] c), c)) (tuples nl [u])).
  assert (IU : inside [u]) by (intros v [<-|[]]; auto).
  destruct (run_best T fin OP ACC AL SE l) as [H1 H2].
  - unfold l. intros Q. apply map_eq_nil in Q. revert Q. apply tuples_nonempty. intros v [<-|[]]. apply (nl_pos T g P0). auto.
  - intros p Hp. apply in_map_iff in Hp. destruct Hp as (c & <- & _). apply FH.
  - set (r := acc_run T (a_neutral ACC) bop (a_op ACC) l) in *. unfold l in H1. apply in_map_iff in H1. destruct H1 as (c & Ec & Hc). apply (tuples_in T g P0) in Hc; auto.
    assert (QC : exists k, c = [k] /\ k < nl u). { clear - Hc. inversion Hc as [|k ? cs ? Hk Hcs]; subst. inversion Hcs; subst. eauto. } destruct QC as (k & -> & Hk).
    pose proof (f_equal fst Ec) as E1. pose proof (f_equal snd Ec) as E2. cbn [fst snd] in E1, E2. exists (acc_value r), k. split; [rewrite <- E2; auto|]. split; [exact Hk|].
    intros k' Hk'. change (H (set x0 u k)) with (H (override x0 [u] [k])). rewrite E1. apply (H2 (H (set x0 u k'), [k'])). unfold l. apply in_map_iff. exists [k']. split; auto.
    apply (tuples_in T g P0); auto. repeat constructor. auto.
Qed.

(** ** The label of a root *)
Lemma root_label : forall v, v < n -> exists out value l y, marginal v = Ret out /\
  AccumulateAllState T (a_neutral ACC) bop (a_op ACC) (t_fn T (if_fn out)) = Ret (value, [l]) /\ best_in (fun _ => False) (fun _ => 0) y /\ y v = l.
Proof.
  intros v Hv. destruct (HM v Hv) as (out & c & Eo & LO & FC & FO & M). assert (IS : inside [v]) by (intros w [<-|[]]; auto).
  assert (SS : StronglySorted lt [v]) by (repeat constructor).
  destruct (single_state v (mkTable (map nl [v]) out) (tab [v] out) (fun _ => 0)) as (value & l & Ea & Hl & B); auto.
  { apply tab_factor; auto. } { intros x. apply (tab_fin T fin); auto. }
  assert (X0 : okl (fun _ => 0)) by (intros w Hw; apply (nl_pos T g P0); auto).
  assert (XK : forall k, k < nl v -> okl (set (fun _ => 0) v k)) by (intros k Hk; apply okl_set; auto).
  destruct (marg_best T fin OP ACC SL AL SE g WF FG [v] (set (fun _ => 0) v l) IS (XK l Hl)) as (y & (Y1 & Y2 & Y3) & EY).
  eexists _, value, l, y. split; [exact Eo|]. split; [exact Ea|]. split.
  - split; auto. split; [intros w []|]. intros z Z _.
    destruct (marg_best T fin OP ACC SL AL SE g WF FG [v] z IS Z) as (w & (W1 & W2 & W3) & EW).
    assert (A1 : bop (E z) (E w) = false) by (apply W3; auto; intros u _; auto).
    pose proof (B (z v) (Z v Hv)) as B1. rewrite (tab_ext T g vone [v] out (set (fun _ => 0) v (z v)) z) in B1 by (intros u [<-|[]]; unfold set; rewrite Nat.eqb_refl; auto).
    rewrite (tab_marginal T OP ACC g WF vone [v] out c) in EW, EY by auto.
    rewrite <- (al_mono _ _ _ AL _ _ c) in B1 by (auto; apply (tab_fin T fin); auto). rewrite EW, EY in B1.
    apply (al_negtrans _ _ _ AL _ (E w)); auto; apply (E_fin T fin OP ACC SL g WF FG); auto.
  - symmetry. pose proof (Y2 v (or_introl eq_refl)) as Q. unfold set in Q. rewrite Nat.eqb_refl in Q. auto.
Qed.

(** ** The label of a variable next to labeled ones *)
Section Next.
Variable conf : list nat.
Hypothesis LC : length conf = n.
Notation cf := (fun v => nth v conf 0).
Hypothesis CL : forall v, v < n -> cf v <> maxLabel -> cf v < nl v.

Lemma split_known_spec : forall vs u, inside vs ->
  split_known maxLabel conf vs u = Ret (filter (fun v => negb (v =? u) && (cf v <? maxLabel)) vs,
    map cf (filter (fun v => negb (v =? u) && (cf v <? maxLabel)) vs), filter (fun v => negb (v =? u) && negb (cf v <? maxLabel)) vs).
Proof.
  intros vs u I. unfold split_known.
  assert (G : forall vs a c, inside vs -> foldM (fun (st : list nat * list nat * list nat) v => let '(kv, ks, uv) := st in
      if v =? u then Ret st else l <- rd conf v ;; Ret (if l <? maxLabel then (kv ++ [v], ks ++ [l], uv) else (kv, ks, uv ++ [v]))) vs (a, map cf a, c)
    = Ret (a ++ filter (fun v => negb (v =? u) && (cf v <? maxLabel)) vs, map cf (a ++ filter (fun v => negb (v =? u) && (cf v <? maxLabel)) vs), c ++ filter (fun v => negb (v =? u) && negb (cf v <? maxLabel)) vs)).
  { clear vs I. induction vs as [|v vs IH]; intros a c I; cbn [foldM filter]; [rewrite !app_nil_r; auto|]. assert (I' : inside vs) by (intros w Hw; apply I; right; auto).
    destruct (Nat.eqb_spec v u) as [->|N]; cbn [negb andb bind]; [apply IH; auto|]. rewrite (rd_nth _ conf v 0) by (rewrite LC; apply I; left; auto). cbn [bind].
    destruct (cf v <? maxLabel) eqn:Q; cbn [negb].
    - pose proof (IH (a ++ [v]) c I') as IH'. rewrite map_app in IH'. cbn [map] in IH'. rewrite IH', <- !app_assoc. auto.
    - rewrite IH, <- !app_assoc by auto. auto. }
  apply (G vs [] []). auto.
Qed.

Variables (u f : nat).
Hypothesis Hu : u < n.
Hypothesis Hf : f < m.
Hypothesis Uf : In u (vars f).
Hypothesis Uu : cf u = maxLabel.
Definition known (v : nat) : Prop := In v (vars f) /\ cf v <> maxLabel.

Lemma lt_known : forall v, v < n -> (cf v <? maxLabel) = true <-> cf v <> maxLabel.
Proof.
  intros v Hv. rewrite Nat.ltb_lt. split; [lia|]. intros H. specialize (CL v Hv H). specialize (ML v Hv). cbn beta in *. lia.
Qed.

Lemma combined : exists t G out c, combine_factor T OP ACC v0 vzero maxLabel g factorMarginal conf u f (if_constant T vone) = Ret (mkIF [u] t) /\
  factor_is T nl t [u] (fun x => op vone (G x)) /\
  Forall fin out /\ fin c /\ marginal_table OP ACC g (vars f) out c /\
  forall x, okl x -> exists w, okl w /\ w u = x u /\ agree known cf w /\ G x = tab (vars f) out w /\
    forall w', okl w' -> w' u = x u -> agree known cf w' -> bop (tab (vars f) out w') (G x) = false.
Proof.
  destruct (HF f Hf) as (out & c & Eo & LO & FC & FO & M). { intros Q. rewrite Q in Uf. destruct Uf. }
  assert (IV : inside (vars f)) by (intros v Hv; apply (vars_lt T OP g WF f); auto).
  assert (SS : StronglySorted lt (vars f)) by apply (vars_wf T OP g WF f).
  unfold combine_factor. rewrite (rd_fac T OP g f Hf). cbn [bind]. change (fst (fac T OP g f)) with (vars f). rewrite Eo. cbn [bind].
  rewrite split_known_spec by auto. cbn [bind].
  set (kv := filter (fun v => negb (v =? u) && (cf v <? maxLabel)) (vars f)). set (uv := filter (fun v => negb (v =? u) && negb (cf v <? maxLabel)) (vars f)).
  assert (IK : forall v, In v kv <-> known v).
  { intros v. unfold kv, known. rewrite filter_In, andb_true_iff, negb_true_iff, Nat.eqb_neq. split; intros [H1 H2]; (split; [exact H1|]).
    - apply lt_known; auto. apply H2.
    - split; [intros ->; contradiction|]. apply lt_known; auto. }
  assert (IUV : forall v, In v uv <-> In v (vars f) /\ v <> u /\ ~ known v).
  { intros v. unfold uv. rewrite filter_In, andb_true_iff, !negb_true_iff, Nat.eqb_neq. split; intros [H1 H2]; (split; [exact H1|]); destruct H2 as [H2 H3]; (split; [exact H2|]).
    - intros [_ K]. apply lt_known in K; auto. congruence.
    - apply not_true_iff_false. intros K. apply lt_known in K; auto. apply H3. split; auto. }
  destruct (C38_fixVariables T v0 nl (mkTable (map nl (vars f)) out) (vars f) (tab (vars f) out) kv (map cf kv)) as (t1 & E1 & R1).
  { apply tab_factor; auto. } { apply sorted_filter; auto. } { apply map_length. }
  { intros j Hj Ij. rewrite nth_map_in with (d := 0) by auto. assert (Kj : known (nth j kv 0)) by (apply IK, nth_In; auto). apply CL; [apply IV; apply Kj|apply Kj]. }
  rewrite E1. cbn [bind if_fn if_vi]. set (rest := filter (fun v => negb (existsb (Nat.eqb v) kv)) (vars f)) in *.
  assert (IR : forall v, In v rest <-> In v (vars f) /\ ~ known v).
  { intros v. unfold rest. rewrite filter_In, not_existsb_eqb, IK. tauto. }
  assert (Ur : In u rest). { apply IR. split; auto. intros [_ K]. auto. }
  set (F := fun x => tab (vars f) out (override x kv (map cf kv))) in *.
  set (keep := filter (fun v => negb (existsb (Nat.eqb v) uv)) rest). set (acc := filter (fun v => existsb (Nat.eqb v) uv) rest).
  assert (IKe : forall v, In v keep <-> v = u).
  { intros v. unfold keep. rewrite filter_In, not_existsb_eqb, IR, IUV. split; [|intros ->; split; [split; auto; intros [_ K]; auto|tauto]]. intros [[A B] C]. destruct (Nat.eq_dec v u); auto. tauto. }
  assert (IA : forall v, In v acc <-> In v uv).
  { intros v. unfold acc. rewrite filter_In, existsb_eqb, IR, IUV. tauto. }
  assert (R2 : exists t2, (match uv with [] => Ret (mkIF rest t1) | _ :: _ => '(a, vi) <- AccumulateSomeInplace T v0 (a_neutral ACC) (a_op ACC) vzero t1 rest uv ;; Ret (mkIF vi a) end) = Ret (mkIF keep t2) /\
     factor_is T nl t2 keep (accumulated (a_op ACC) (a_neutral ACC) nl acc F)).
  { destruct (C38_accumulate_some T v0 (a_neutral ACC) (a_op ACC) vzero nl rest uv F) as [_ A]. { intros Q. rewrite Q in Ur. destruct Ur. }
    specialize (A t1 R1). destruct A as (t2 & E2 & A). destruct uv as [|a0 uv'] eqn:Q.
    - assert (QK : keep = rest). { unfold keep. cbn [existsb negb]. clear. induction rest as [|a r IH]; auto. cbn [filter]. rewrite IH. auto. }
      assert (QA : acc = []). { unfold acc. cbn [existsb]. clear. induction rest as [|a r IH]; auto. }
      rewrite QK, QA. exists t1. split; auto.
    - rewrite E2. cbn [bind]. exists t2. split; auto. }
  destruct R2 as (t2 & E2 & R2). rewrite E2. cbn [bind if_fn if_vi].
  destruct (C38_inplace T v0 nl (t_scalar T vone) (t_fn T t2) [] keep (fun _ => vone) (accumulated (a_op ACC) (a_neutral ACC) nl acc F) op) as (t3 & vi & E3 & I3 & R3).
  { destruct (C38_construction T v0 nl []) as (_ & _ & _ & Q). destruct (Q vone) as (t & Et & Ft). injection Et as <-. auto. }
  { apply R2. } { right. intros Q. assert (X : In u keep) by (apply IKe; auto). rewrite Q in X. destruct X. }
  cbn [if_constant if_fn if_vi]. rewrite E3. cbn [bind].
  assert (vi = [u]) as ->. { apply sorted_single; [apply R3|]. intros v. rewrite I3, IKe. cbn [In]. tauto. }
  exists t3, (accumulated (a_op ACC) (a_neutral ACC) nl acc F), out, c. split; auto. split; auto. split; auto. split; auto. split; auto.
  (* the values *)
  assert (IAc : inside acc) by (intros v Hv; apply IA, IUV in Hv; apply IV; tauto).
  assert (SA : StronglySorted lt acc) by (apply sorted_filter, sorted_filter; auto).
  assert (W : forall x cs, okl x -> in_shape (map nl acc) cs -> let w := override (override x acc cs) kv (map cf kv) in okl w /\ w u = x u /\ agree known cf w).
  { intros x cs X HC w. split; [|split].
    - intros v Hv. unfold w. rewrite override_map. destruct (in_dec Nat.eq_dec v kv) as [I|_]; [apply CL; auto; apply IK in I; apply I|]. apply (okl_override T g); auto. apply sorted_NoDup; auto.
    - unfold w. rewrite override_map. destruct (in_dec Nat.eq_dec u kv) as [I|_]; [apply IK in I; destruct I; contradiction|]. apply override_out. rewrite IA, IUV. tauto.
    - intros v Hv. unfold w. rewrite override_map. destruct (in_dec Nat.eq_dec v kv) as [I|NI]; auto. destruct NI. apply IK. auto. }
  assert (TW : forall x w', okl w' -> w' u = x u -> agree known cf w' -> tab (vars f) out w' = F (override x acc (map w' acc))).
  { intros x w' W' QU A. unfold F. apply tab_ext. intros v Hv. rewrite override_map. destruct (in_dec Nat.eq_dec v kv) as [I|NI]; [symmetry; apply A; apply IK; auto|].
    rewrite override_map. destruct (in_dec Nat.eq_dec v acc) as [J|NJ]; auto. rewrite IA, IUV in NJ. rewrite IK in NI. destruct (Nat.eq_dec v u) as [->|]; auto. tauto. }
  intros x X. unfold accumulated. destruct acc as [|a0 acc'] eqn:QA.
  - exists (override x kv (map cf kv)). destruct (W x [] X) as (W1 & W2 & W3); [constructor|]. cbn [override] in *. split; auto. split; auto. split; auto. split; auto.
    intros w' W' QU A. rewrite (TW x w') by auto. cbn [map override]. apply (al_irrefl _ _ _ AL). unfold F. apply (tab_fin T fin); auto.
  - rewrite <- QA in *. set (vs := values_over T nl acc F x). destruct (values_best T fin OP ACC AL SE vs) as [V1 V2].
    + unfold vs, values_over. intros Q. apply map_eq_nil in Q. revert Q. apply tuples_nonempty. intros v Hv. apply (nl_pos T g P0). auto.
    + apply Forall_forall. intros v Hv. apply in_map_iff in Hv. destruct Hv as (cs & <- & _). unfold F. apply (tab_fin T fin); auto.
    + assert (V1' := V1). unfold vs at 2 in V1'. apply in_map_iff in V1'. destruct V1' as (cs & Ec & Hc). apply (tuples_in T g P0) in Hc; auto.
      destruct (W x cs X Hc) as (W1 & W2 & W3). exists (override (override x acc cs) kv (map cf kv)). split; auto. split; auto. split; auto. split; [exact (eq_sym Ec)|].
      intros w' W' QU A. rewrite (TW x w') by auto. apply V2. unfold vs, values_over. apply in_map_iff. exists (map w' acc). split; auto.
      apply (tuples_in T g P0); auto. apply map_in_shape. intros v Hv. apply W'. auto.
Qed.

Lemma once : forall (A : Type) (h : A -> nat -> outcome A) l a a', NoDup l -> In f l -> h a f = Ret a' ->
  foldM (fun t k => if k =? f then h t k else Ret t) l a = Ret a'.
Proof.
  intros A h l a a' N I H.
  assert (G : forall l a, ~ In f l -> foldM (fun t k => if k =? f then h t k else Ret t) l a = Ret a).
  { clear. induction l as [|k l IH]; intros a NI; cbn [foldM]; auto. destruct (Nat.eqb_spec k f) as [->|]; [destruct NI; left; auto|]. cbn [bind]. apply IH. intros K; apply NI; right; auto. }
  induction l as [|k l IH]; [destruct I|]. inversion N as [|? ? NI N']; subst. cbn [foldM]. destruct (Nat.eqb_spec k f) as [->|NE].
  - rewrite H. cbn [bind]. apply G. auto.
  - cbn [bind]. apply IH; auto. destruct I; [congruence|auto].
Qed.

Lemma next_label : exists l y, label_from_factor T OP ACC vone v0 vzero maxLabel g factorMarginal conf u f = Ret l /\ best_in known cf y /\ y u = l.
Proof.
  destruct combined as (t & G & out & c & Ec & R & FO & FC & M & B). unfold label_from_factor.
  assert (IV : inside (vars f)) by (intros v Hv; apply (vars_lt T OP g WF f); auto).
  assert (SS : StronglySorted lt (vars f)) by apply (vars_wf T OP g WF f).
  rewrite (once _ (fun t0 k => combine_factor T OP ACC v0 vzero maxLabel g factorMarginal conf u k t0) (facs_of T g u) (if_constant T vone) (mkIF [u] t)); auto; [|apply facs_nodup|apply (facs_in T OP g); auto].
  cbn [bind if_fn].
  set (x0 := fun v => if cf v <? maxLabel then cf v else 0).
  assert (X0 : okl x0). { intros v Hv. unfold x0. destruct (cf v <? maxLabel) eqn:Q; [apply CL; auto; apply lt_known; auto|apply (nl_pos T g P0); auto]. }
  assert (FT : forall w, fin (tab (vars f) out w)) by (intros w; apply (tab_fin T fin); auto).
  set (G' := fun x => op vone (G (fun v => if x v <? nl v then x v else 0))).
  assert (OK' : forall x, okl (fun v => if x v <? nl v then x v else 0)). { intros x v Hv. destruct (x v <? nl v) eqn:Q; [apply Nat.ltb_lt; auto|apply (nl_pos T g P0); auto]. }
  assert (R' : factor_is T nl t [u] G').
  { destruct R as [(R1 & R2 & R3 & R4) RL]. split; auto. split; auto. split; auto. split; auto. intros x rest LX. unfold G'.
    assert (Q : (if x u <? nl u then x u else 0) = x u). { assert (x u < nl u) by (apply LX; left; auto). apply Nat.ltb_lt in H. rewrite H. auto. }
    rewrite <- (R4 (fun v => if x v <? nl v then x v else 0) rest); [cbn [map]; rewrite Q; auto|]. intros v [<-|[]]. rewrite Q. apply LX. left; auto. }
  assert (GF : forall x, okl x -> fin (G x)) by (intros x X; destruct (B x X) as (w & _ & _ & _ & -> & _); auto).
  destruct (single_state u t G' x0 R' Hu) as (value & l & Ea & Hl & Bl).
  { intros x. unfold G'. apply (sl_op _ _ _ SL); auto. }
  rewrite Ea. cbn [bind]. rewrite (rd_nth _ [l] 0 0) by (cbn; lia). cbn [nth].
  assert (XK : forall k, k < nl u -> okl (set x0 u k)) by (intros k Hk; apply okl_set; auto).
  assert (GE : forall k, k < nl u -> exists x, okl x /\ x u = k /\ G' (set x0 u k) = op vone (G x)).
  { intros k Hk. eexists. split; [apply OK'|]. split; [|reflexivity]. cbn beta. unfold set. rewrite Nat.eqb_refl. apply Nat.ltb_lt in Hk. rewrite Hk. auto. }
  destruct (GE l Hl) as (xl & OXl & Ul & EGl). destruct (B xl OXl) as (w & W1 & W2 & W3 & W4 & _).
  destruct (marg_best T fin OP ACC SL AL SE g WF FG (vars f) w IV W1) as (y & (Y1 & Y2 & Y3) & EY).
  exists l, y. split; auto. assert (YU : y u = l) by (rewrite <- (Y2 u Uf); congruence). split; auto. split; auto. split.
  - intros v Hv. rewrite (W3 v Hv). apply Y2. apply Hv.
  - intros z Z A. destruct (GE (z u) (Z u Hu)) as (xz & OXz & Uz & EGz). destruct (B xz OXz) as (_ & _ & _ & _ & _ & Bz).
    pose proof (Bz z Z (eq_sym Uz) A) as B1. pose proof (Bl (z u) (Z u Hu)) as B2. rewrite EGl, EGz in B2. rewrite (al_mono _ _ _ AL) in B2 by auto.
    destruct (marg_best T fin OP ACC SL AL SE g WF FG (vars f) z IV Z) as (yz & (Q1 & Q2 & Q3) & EQ).
    assert (B3 : bop (tab (vars f) out z) (tab (vars f) out w) = false) by (rewrite <- W4; apply (al_negtrans _ _ _ AL _ (G xz)); auto).
    rewrite (tab_marginal T OP ACC g WF vone (vars f) out c) in EQ, EY by auto.
    rewrite <- (al_mono _ _ _ AL _ _ c) in B3 by auto. rewrite EQ, EY in B3.
    apply (al_negtrans _ _ _ AL _ (E yz)); auto; try (apply (E_fin T fin OP ACC SL g WF FG); auto). apply Q3; auto. intros v _; auto.
Qed.
End Next.
End Label.
