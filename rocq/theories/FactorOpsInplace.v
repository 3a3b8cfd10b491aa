(** In-place binary operations. *)
From Coq Require Import Sorted.
From Verif Require Import Base ShapeSpec ShapeProofs IndexingModel IndexingProofs UtilModel FunctionBaseProofs MarrayProofs GmProofs
  FactorOpsModel FactorOpsSpec FactorOpsProofs FactorOpsTables.

Section Inplace.
Variables (V : Type) (v0 : V).

Lemma dsw_next_ok : forall nl vic va m k cA, (forall v, In v vic -> 0 < nl v) -> StronglySorted lt vic -> StronglySorted lt va ->
  match_ok vic va m -> projection vic va (coord_of (map nl vic) k) cA ->
  exists cA', dsw_next (length (map nl vic)) (map nl vic) m (coord_of (map nl vic) k, cA)
    = Ret (coord_of (map nl vic) (S k), cA') /\ projection vic va (coord_of (map nl vic) (S k)) cA'.
Proof.
  intros nl vic va m k cA P S SA MA PA. unfold dsw_next.
  destruct (dsw_loop_spec vic va m (map nl vic) [] [] (coord_of (map nl vic) k) cA) as [cA' [E' P']]; auto.
  { apply coord_of_length. } { rewrite map_length. auto. }
  cbn [app length] in E', P'. rewrite incr_coord in E', P' by (apply map_positive; auto). exists cA'. split; auto.
Qed.

Lemma double_loop : forall nl va vb d (body : table V -> list nat * list nat -> outcome (table V)) g,
  (forall v, In v va -> 0 < nl v) -> StronglySorted lt va -> StronglySorted lt vb -> incl vb va -> length d = size_of (map nl va) ->
  (forall k, k < length d -> body (mkTable (map nl va) (partial_data V g k d)) (coord_of (map nl va) k, map (lab nl va k) vb)
     = Ret (mkTable (map nl va) (upd (partial_data V g k d) k (g k)))) ->
  double_sweep V (mkTable (map nl va) d) (map nl va) va vb body = Ret (mkTable (map nl va) (map g (seq 0 (length d)))).
Proof.
  intros nl va vb d body g P SA SB IB LD HB. pose proof (map_positive nl va P) as HP. assert (ND : NoDup va) by (apply sorted_NoDup; auto).
  unfold double_sweep, dsw_init. destruct (dsw_match_spec va vb SA SB) as [m [EM M]].
  rewrite (map_length nl va), EM, <- (map_length nl va). cbn [bind t_data].
  destruct (table_loop V (list nat * list nat) (dsw_next (length (map nl va)) (map nl va) m) body
     (fun k w => exists cA, w = (coord_of (map nl va) k, cA) /\ projection va vb (coord_of (map nl va) k) cA)
     g (map nl va) d (repeat 0 (length (map nl va)), repeat 0 (length vb))) as (w & EL).
  - eexists. split; [rewrite coord_of_0 by auto; reflexivity|].
    split; [apply repeat_length|]; intros; rewrite coord_of_0 by auto; rewrite !nth_repeat; auto.
  - intros k w (cA & -> & QA) Hk. destruct (dsw_next_ok nl va vb m k cA) as (cA' & E' & QA'); auto.
    eexists. split; [exact E'|]. intros _. eauto.
  - intros k w (cA & -> & QA) Hk. rewrite <- map_lab in QA by auto. apply projection_labels in QA; auto. subst cA. apply HB; auto.
  - rewrite EL. auto.
Qed.

Lemma binary_inplace_spec : forall nl a b va vb A B op, factor_is V nl a va A -> represents V nl (b a) vb B -> va <> [] \/ vb <> [] ->
  (incl vb va -> forall k rest, k < size_of (map nl va) ->
     f_read (b (mkTable (map nl va) (partial_data V (fun k => op (A (lab nl va k)) (B (lab nl va k))) k (t_data a)))) (map (lab nl va k) vb ++ rest)
     = Ret (B (lab nl va k))) ->
  exists c vic, BinaryOperationInplace V v0 op a b va vb = Ret (c, vic) /\ factor_is V nl c vic (fun x => op (A x) (B x)) /\
    forall u, In u vic <-> In u va \/ In u vb.
Proof.
  intros nl a b va vb A B op FA RB HN HB2. pose proof FA as [RA LD]. pose proof RA as (SA & ShA & PA & HA). pose proof RB as (SB & ShB & PB & HB).
  cbn [t_fn f_shape] in ShA. destruct (compute_spec nl va vb SA SB) as (vic & E & SC & IC). destruct (incl_of_iff _ _ _ IC) as [IA IB].
  unfold BinaryOperationInplace. rewrite ShA, ShB, E. cbn [bind].
  destruct (Nat.eqb_spec (length vic) (length va)) as [EL|EL].
  2: { destruct (binary_spec V v0 nl (t_fn V a) (b a) va vb A B op RA RB HN) as (c & vic' & E' & H' & I'). rewrite E'. cbn [bind]. eauto. }
  assert (NDA : NoDup va) by (apply sorted_NoDup; auto). assert (NDC : NoDup vic) by (apply sorted_NoDup; auto).
  assert (Ev : vic = va).
  { apply sorted_ext; auto. intros u. split; [|apply IA]. apply (NoDup_length_incl NDA); auto. lia. }
  subst vic. destruct (Nat.eqb_spec (length va) 0) as [Z|Z].
  { exfalso. destruct va; [|discriminate]. destruct vb as [|u vb]; [destruct HN; contradiction|]. apply (IB u). left; auto. }
  cbn [negb]. destruct a as [sh d]. cbn [t_shape t_data] in *. subst sh.
  set (g := fun k => op (A (lab nl va k)) (B (lab nl va k))) in *.
  pose proof (map_positive nl va PA) as HP.
  assert (HG : factor_is V nl (mkTable (map nl va) (map g (seq 0 (length d)))) va (fun x => op (A x) (B x))).
  { rewrite LD. apply (build_factor V nl va (fun x => op (A x) (B x))); auto. intros x y HX HE.
    rewrite (represents_ext V nl _ va A x y RA), (represents_ext V nl _ vb B x y RB); auto. eapply legal_incl; eauto. }
  assert (RD : forall k, k < length d -> t_read V (mkTable (map nl va) (partial_data V g k d)) (coord_of (map nl va) k) = Ret (A (lab nl va k))).
  { intros k Hk. pose proof (factor_entry V nl _ va A k FA) as E1. cbn [t_data] in E1.
    pose proof (read_partial V (map nl va) d g k [] _ HP LD Hk (E1 ltac:(lia))) as E2. rewrite app_nil_r in E2. auto. }
  assert (W : forall k, k < length d -> t_write V (mkTable (map nl va) (partial_data V g k d)) (coord_of (map nl va) k) (g k)
     = Ret (mkTable (map nl va) (upd (partial_data V g k d) k (g k)))).
  { intros k Hk. pose proof (write_partial V (map nl va) d g k (g k) [] HP LD Hk) as E1. rewrite app_nil_r in E1. auto. }
  exists (mkTable (map nl va) (map g (seq 0 (length d)))), va.
  destruct (Nat.eqb_spec (length vb) 0) as [ZB|ZB]; cbn [negb].
  - destruct vb; [|discriminate]. rewrite (double_loop nl va [] d _ g); auto. intros k Hk. cbn [fst snd]. rewrite RD by auto. cbn [bind].
    pose proof (HB2 IB k [0]) as E1. cbn [map app] in E1. rewrite E1 by lia. cbn [bind]. apply W; auto.
  - rewrite (double_loop nl va vb d _ g); auto. intros k Hk. cbn [fst snd]. rewrite RD by auto. cbn [bind].
    pose proof (HB2 IB k []) as E1. rewrite app_nil_r in E1. rewrite E1 by lia. cbn [bind]. apply W; auto.
Qed.

Lemma inplace_other : forall nl a b va vb A B op, factor_is V nl a va A -> represents V nl b vb B -> va <> [] \/ vb <> [] ->
  exists c vic, BinaryOperationInplace V v0 op a (fun _ => b) va vb = Ret (c, vic) /\ factor_is V nl c vic (fun x => op (A x) (B x)) /\
    forall u, In u vic <-> In u va \/ In u vb.
Proof.
  intros nl a b va vb A B op FA RB HN. apply binary_inplace_spec; auto. intros IB k rest Hk.
  destruct FA as [(S & _ & P & _) _]. destruct RB as (_ & _ & _ & H). apply H. eapply legal_incl; [exact IB|].
  apply lab_legal; auto. apply sorted_NoDup; auto.
Qed.
Lemma inplace_self : forall nl a va A op, factor_is V nl a va A -> va <> [] ->
  exists c, BinaryOperationInplace V v0 op a (t_fn V) va va = Ret (c, va) /\ factor_is V nl c va (fun x => op (A x) (A x)).
Proof.
  intros nl a va A op FA HN. pose proof FA as [R LD]. destruct (binary_inplace_spec nl a (t_fn V) va va A A op) as (c & vic & E & H & I); auto.
  - intros IB k rest Hk. pose proof R as (S & _ & P & _). rewrite map_lab by (apply sorted_NoDup; auto). cbn [t_fn f_read].
    apply read_partial; auto.
    + apply map_positive; auto.
    + lia.
    + apply (factor_entry V nl a va A k FA). auto.
  - assert (Ev : vic = va).
    { destruct H as [(S1 & _) _]. destruct R as (S2 & _). apply sorted_ext; auto. intros u. rewrite I. tauto. }
    subst. eauto.
Qed.
End Inplace.
