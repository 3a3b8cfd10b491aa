(** C23 (summaries), C24 (property predicates) and operator== (C36). *)
From Verif Require Import Base ShapeSpec ShapeProofs IndexingModel IndexingProofs UtilModel PartitionsSpec FunctionsModel FunctionsProofs FunctionsProps FunctionBaseModel FunctionBaseProofs.
From Coq Require Import Permutation.

(** [f] has positive extents and the value [v c] at every coordinate tuple of its shape. *)
Definition valued {T} (f : gfun T) (v : list nat -> T) : Prop :=
  positive (gf_shape f) /\ forall c, in_shape (gf_shape f) c -> gf_call f c = Ret (v c).
(** [L] lists every coordinate tuple of the shape once. *)
Definition lists_all (sh : list nat) (L : list (list nat)) : Prop := NoDup L /\ forall c, In c L <-> in_shape sh c.
Definition is_min (sh : list nat) (v : list nat -> Z) (m : Z) : Prop := (exists c, in_shape sh c /\ v c = m) /\ forall c, in_shape sh c -> (m <= v c)%Z.
Definition is_max (sh : list nat) (v : list nat -> Z) (m : Z) : Prop := (exists c, in_shape sh c /\ v c = m) /\ forall c, in_shape sh c -> (v c <= m)%Z.
Definition sum_list (l : list Z) : Z := fold_right Z.add 0%Z l.
Definition prod_list (l : list Z) : Z := fold_right Z.mul 1%Z l.

(** C23 *)
(** The functor sees every value once, the first coordinate fastest; in switched order, the last one. *)
Theorem C23_sweep : forall T St (f : gfun T) v (functor : St -> T -> St) s, valued f v ->
  for_values f functor s = Ret (fold_left functor (map (fun k => v (coord_of (gf_shape f) k)) (seq 0 (size_of (gf_shape f)))) s) /\
  (gf_shape f <> [] -> for_values_switched f functor s =
     Ret (fold_left functor (map (fun k => v (rev (coord_of (rev (gf_shape f)) k))) (seq 0 (size_of (gf_shape f)))) s)).
Proof.
  intros T St f v functor s [HP HV]. split.
  - rewrite (for_values_spec f v HP HV). unfold coords. rewrite map_map. auto.
  - intros HN. rewrite (for_values_switched_spec f v HP HV) by auto. unfold coords_switched. rewrite map_map. auto.
Qed.
(** Each visit also gets the coordinate tuple the value belongs to. *)
Theorem C23_sweep_coordinates : forall T (f : gfun T) v, valued f v ->
  exists l, for_values_coord f (fun l x c => l ++ [(c, x)]) [] = Ret l /\ lists_all (gf_shape f) (map fst l) /\ forall c x, In (c, x) l -> x = v c.
Proof.
  intros T f v [HP HV]. eexists. split; [apply (for_values_coord_spec f v HP HV)|].
  assert (G : forall cs l, fold_left (fun s c => s ++ [(c, v c)]) cs l = l ++ map (fun c => (c, v c)) cs).
  { induction cs; intros l; cbn. { rewrite app_nil_r; auto. } rewrite IHcs, <- app_assoc. auto. }
  rewrite G. cbn [app]. split.
  - rewrite map_map. cbn. rewrite map_id. split; [apply nodup_coords; auto|]. intros c. apply in_coords; auto.
  - intros c x H. apply in_map_iff in H. destruct H as (c' & E & _). congruence.
Qed.
(** With no variables the switched order reads behind the coordinate buffer. *)
Theorem C23_switched_order_refuted : exists f : gfun Z, valued f (fun _ => 5%Z) /\ for_values_switched f Z.add 0%Z = Undef.
Proof. exists (mkG [] (fun _ => Ret 5%Z)). split; [split; [constructor|auto]|vm_compute; reflexivity]. Qed.

Lemma fold_min : forall l a, let m := fold_left op_min l a in (m = a \/ In m l) /\ (m <= a)%Z /\ forall x, In x l -> (m <= x)%Z.
Proof.
  induction l as [|x l IH]; intros a; cbn. { repeat split; auto; [lia|intros; contradiction]. }
  destruct (IH (op_min a x)) as (H1 & H2 & H3). set (m := fold_left op_min l (op_min a x)) in *. unfold op_min in H1, H2.
  destruct (Z.ltb_spec x a); repeat split; try lia; try (destruct H1; auto); intros y [->|Hy]; try lia; apply H3; auto.
Qed.
Lemma fold_max : forall l a, let m := fold_left op_max l a in (m = a \/ In m l) /\ (a <= m)%Z /\ forall x, In x l -> (x <= m)%Z.
Proof.
  induction l as [|x l IH]; intros a; cbn. { repeat split; auto; [lia|intros; contradiction]. }
  destruct (IH (op_max a x)) as (H1 & H2 & H3). set (m := fold_left op_max l (op_max a x)) in *. unfold op_max in H1, H2.
  destruct (Z.ltb_spec a x); repeat split; try lia; try (destruct H1; auto); intros y [->|Hy]; try lia; apply H3; auto.
Qed.
Lemma fold_mm : forall l a b, fold_left (mm_feed Z Z.ltb) l (mm_init2 Z a b) = mm_init2 Z (fold_left op_min l a) (fold_left op_max l b).
Proof. induction l as [|x l IH]; intros a b; cbn [fold_left]; auto. unfold mm_feed at 2. cbn [mm_first mm_min mm_max mm_init2]. apply IH. Qed.
Lemma zero_in : forall sh, positive sh -> in_shape sh (sw_init (length sh)).
Proof. intros. apply positive_in_shape_0; auto. Qed.
Lemma perm_sum : forall l l', Permutation l l' -> sum_list l = sum_list l'.
Proof. intros l l' H. induction H; cbn; try lia. unfold sum_list in *. lia. Qed.
Lemma perm_prod : forall l l', Permutation l l' -> prod_list l = prod_list l'.
Proof. intros l l' H. induction H; cbn; try lia. - unfold prod_list in *. congruence. Qed.
Lemma lists_perm : forall sh L, positive sh -> lists_all sh L -> Permutation L (coords sh).
Proof. intros sh L HP [N I]. apply NoDup_Permutation; auto. { apply nodup_coords; auto. } intros c. rewrite I, in_coords; tauto. Qed.
Lemma fold_left_sum : forall l a, fold_left (fun acc v => (acc + v)%Z) l a = (a + sum_list l)%Z.
Proof. induction l; intros b; cbn; [lia|]. rewrite IHl. unfold sum_list. cbn. lia. Qed.
Lemma fold_left_prod : forall l a, fold_left (fun acc v => (acc * v)%Z) l a = (a * prod_list l)%Z.
Proof. induction l; intros b; cbn; [lia|]. rewrite IHl. unfold prod_list. cbn. lia. Qed.

Theorem C23_generic : forall f v L, valued f v -> lists_all (gf_shape f) L ->
  (exists m, fun_min f = Ret m /\ is_min (gf_shape f) v m) /\
  (exists m, fun_max f = Ret m /\ is_max (gf_shape f) v m) /\
  (exists r, fun_minMax f = Ret r /\ is_min (gf_shape f) v (mm_min r) /\ is_max (gf_shape f) v (mm_max r)) /\
  fun_sum f = Ret (sum_list (map v L)) /\ fun_product f = Ret (prod_list (map v L)).
Proof.
  intros f v L HW HL. pose proof HW as [HP HV].
  assert (Z0 := HV _ (zero_in _ HP)).
  assert (Imin : is_min (gf_shape f) v (fold_left op_min (map v (coords (gf_shape f))) (v (sw_init (gf_dim f))))).
  { destruct (fold_min (map v (coords (gf_shape f))) (v (sw_init (gf_dim f)))) as (H1 & H2 & H3). cbv zeta in *. split.
    - destruct H1 as [H1|H1]. { exists (sw_init (gf_dim f)). split; auto. apply zero_in; auto. }
      apply in_map_iff in H1. destruct H1 as (c & E & Hc). apply in_coords in Hc; auto. eauto.
    - intros c Hc. apply H3. apply in_map. apply in_coords; auto. }
  assert (Imax : is_max (gf_shape f) v (fold_left op_max (map v (coords (gf_shape f))) (v (sw_init (gf_dim f))))).
  { destruct (fold_max (map v (coords (gf_shape f))) (v (sw_init (gf_dim f)))) as (H1 & H2 & H3). cbv zeta in *. split.
    - destruct H1 as [H1|H1]. { exists (sw_init (gf_dim f)). split; auto. apply zero_in; auto. }
      apply in_map_iff in H1. destruct H1 as (c & E & Hc). apply in_coords in Hc; auto. eauto.
    - intros c Hc. apply H3. apply in_map. apply in_coords; auto. }
  unfold fun_min, fun_max, fun_minMax, fun_sum, fun_product. unfold gf_dim in *. rewrite Z0. cbn [bind].
  rewrite !(for_values_spec f v HP HV).
  split; [eauto|]. split; [eauto|]. split. { rewrite fold_mm. eexists; split; [reflexivity|]. auto. }
  rewrite fold_left_sum, fold_left_prod, Z.add_0_l, Z.mul_1_l. split; f_equal; [apply perm_sum|apply perm_prod]; apply Permutation_map; symmetry; apply lists_perm; auto.
Qed.
Theorem C23_accumulate : forall f v L, valued f v -> lists_all (gf_shape f) L ->
  (exists m, fun_accumulate f AMinimizer = Ret m /\ is_min (gf_shape f) v m) /\
  (exists m, fun_accumulate f AMaximizer = Ret m /\ is_max (gf_shape f) v m) /\
  fun_accumulate f AAdder = Ret (sum_list (map v L)) /\ fun_accumulate f AIntegrator = Ret (sum_list (map v L)) /\
  fun_accumulate f AMultiplier = Ret (prod_list (map v L)) /\
  forall n op, (forall a b c, op a (op b c) = op b (op a c)) -> fun_accumulate f (AOther n op) = Ret (fold_right op n (map v L)).
Proof.
  intros f v L HW HL. destruct (C23_generic f v L HW HL) as (A & B & C & D & E). cbn [fun_accumulate]. repeat (split; [assumption|]).
  intros n op HO. destruct HW as [HP HV]. rewrite (for_values_spec f v HP HV). f_equal.
  assert (G : forall l a, fold_left (fun acc v => op v acc) l a = fold_right op a l).
  { induction l as [|x l IH]; intros a; cbn; auto. rewrite IH. clear IH. induction l as [|y l IH]; cbn; auto. rewrite IH. apply HO. }
  rewrite G. assert (P : Permutation (map v (coords (gf_shape f))) (map v L)) by (apply Permutation_map; symmetry; apply lists_perm; auto).
  clear - P HO. induction P; cbn; congruence.
Qed.

(** Potts: the values of a table with n1 x n2 labels. *)
Lemma valued_potts : forall f, 0 < f_n1 f -> 0 < f_n2 f -> valued (potts_fun f) (fun c => if nth 0 c 0 =? nth 1 c 0 then f_a f else f_b f).
Proof.
  intros f H1 H2. split. { repeat constructor; auto. } intros c Hc. cbn in Hc. inversion Hc as [|x ? c1 ? Hx Hc1]; subst. inversion Hc1 as [|y ? c2 ? Hy Hc2]; subst. inversion Hc2; subst.
  reflexivity.
Qed.
Definition grid (n1 n2 : nat) : list (list nat) := flat_map (fun x => map (fun y => [x; y]) (seq 0 n2)) (seq 0 n1).
Lemma lists_grid : forall n1 n2, lists_all [n1; n2] (grid n1 n2).
Proof.
  intros n1 n2. split.
  - unfold grid. assert (G : forall l, NoDup l -> NoDup (flat_map (fun x => map (fun y => [x; y]) (seq 0 n2)) l)).
    { induction l as [|x l IH]; intros H; cbn; [constructor|]. inversion H; subst. apply NoDup_app_intro; auto.
      - apply NoDup_map_in; [apply seq_NoDup|]. intros a b _ _ E. congruence.
      - intros c Hc Hc'. apply in_map_iff in Hc. destruct Hc as (y & <- & _). apply in_flat_map in Hc'. destruct Hc' as (x' & Hx & Hy). apply in_map_iff in Hy. destruct Hy as (y' & E & _).
        injection E as -> ->. contradiction. }
    apply G. apply seq_NoDup.
  - intros c. unfold grid. rewrite in_flat_map. split.
    + intros (x & Hx & Hy). apply in_map_iff in Hy. destruct Hy as (y & <- & Hy). apply in_seq in Hx, Hy. constructor; [lia|]. constructor; [lia|constructor].
    + intros Hc. inversion Hc as [|x ? c1 ? Hx Hc1]; subst. inversion Hc1 as [|y ? c2 ? Hy Hc2]; subst. inversion Hc2; subst. exists x. split; [apply in_seq; lia|].
      apply in_map_iff. exists y. split; auto. apply in_seq. lia.
Qed.
Lemma row_values : forall x (a b : Z) n, Permutation (map (fun y => if x =? y then a else b) (seq 0 n)) (if x <? n then a :: repeat b (n - 1) else repeat b n).
Proof.
  intros x a b n. induction n as [|n IH]. { reflexivity. }
  rewrite seq_S, map_app. cbn [map plus]. rewrite IH. destruct (Nat.ltb_spec x n), (Nat.ltb_spec x (S n)), (Nat.eqb_spec x n); try lia.
  - replace (S n - 1) with (S (n - 1)) by lia. cbn [app repeat]. apply Permutation_cons; auto. symmetry. apply Permutation_cons_append.
  - subst. replace (S n - 1) with n by lia. symmetry. apply Permutation_cons_append.
  - cbn [repeat]. symmetry. apply Permutation_cons_append.
Qed.
Lemma grid_values : forall (a b : Z) n1 n2, Permutation (map (fun c => if nth 0 c 0 =? nth 1 c 0 then a else b) (grid n1 n2))
  (repeat a (Nat.min n1 n2) ++ repeat b (n1 * n2 - Nat.min n1 n2)).
Proof.
  intros a b n1 n2. induction n1 as [|n1 IH]. { reflexivity. }
  unfold grid in *. rewrite seq_S, flat_map_app, map_app. cbn [flat_map plus]. rewrite app_nil_r. rewrite IH, map_map. cbn [nth]. rewrite row_values.
  destruct (Nat.ltb_spec n1 n2).
  - replace (Nat.min (S n1) n2) with (S (Nat.min n1 n2)) by lia. replace (S n1 * n2 - S (Nat.min n1 n2)) with ((n1 * n2 - Nat.min n1 n2) + (n2 - 1)) by nia.
    rewrite repeat_app. cbn [repeat app]. rewrite <- Permutation_middle. apply Permutation_cons; auto. rewrite app_assoc. auto.
  - replace (Nat.min (S n1) n2) with (Nat.min n1 n2) by lia. replace (S n1 * n2 - Nat.min n1 n2) with ((n1 * n2 - Nat.min n1 n2) + n2) by nia.
    rewrite repeat_app, app_assoc. auto.
Qed.
Lemma sum_repeat : forall a n, sum_list (repeat a n) = (a * Z.of_nat n)%Z.
Proof. intros a n. induction n; cbn [repeat]; [cbn; lia|]. unfold sum_list in *. cbn [fold_right]. lia. Qed.
Lemma prod_repeat : forall a n, prod_list (repeat a n) = (a ^ Z.of_nat n)%Z.
Proof. intros a n. induction n; cbn [repeat]; [cbn; lia|]. unfold prod_list in *. cbn [fold_right]. rewrite IHn, Nat2Z.inj_succ, Z.pow_succ_r; lia. Qed.
Lemma sum_app : forall l l', sum_list (l ++ l') = (sum_list l + sum_list l')%Z.
Proof. induction l; intros; cbn; auto. rewrite IHl. unfold sum_list. cbn. lia. Qed.
Lemma prod_app : forall l l', prod_list (l ++ l') = (prod_list l * prod_list l')%Z.
Proof. induction l; intros; cbn [app]. { unfold prod_list at 2; cbn [fold_right]. rewrite Z.mul_1_l; auto. } unfold prod_list in *. cbn [fold_right]. rewrite IHl. lia. Qed.

Theorem C23_potts : forall f L, 0 < f_n1 f -> 0 < f_n2 f -> lists_all [f_n1 f; f_n2 f] L ->
  exists v, valued (potts_fun f) v /\ potts_sum f = sum_list (map v L) /\ potts_product f = prod_list (map v L) /\
  (1 < f_n1 f * f_n2 f -> is_min [f_n1 f; f_n2 f] v (potts_min f) /\ is_max [f_n1 f; f_n2 f] v (potts_max f) /\
     is_min [f_n1 f; f_n2 f] v (mm_min (potts_minMax f)) /\ is_max [f_n1 f; f_n2 f] v (mm_max (potts_minMax f))).
Proof.
  intros f L H1 H2 HL. pose proof (valued_potts f H1 H2) as HW. eexists; split; [exact HW|].
  assert (P : Permutation (map (fun c => if nth 0 c 0 =? nth 1 c 0 then f_a f else f_b f) L) (repeat (f_a f) (Nat.min (f_n1 f) (f_n2 f)) ++ repeat (f_b f) (f_n1 f * f_n2 f - Nat.min (f_n1 f) (f_n2 f)))).
  { rewrite <- grid_values. apply Permutation_map. destruct HW as [HP _]. rewrite (lists_perm _ L HP HL). symmetry. apply (lists_perm _ _ HP). apply lists_grid. }
  split. { rewrite (perm_sum _ _ P), sum_app, !sum_repeat. unfold potts_sum. lia. }
  split. { rewrite (perm_prod _ _ P), prod_app, !prod_repeat. unfold potts_product. lia. }
  intros HB. assert (E : exists c, in_shape [f_n1 f; f_n2 f] c /\ (if nth 0 c 0 =? nth 1 c 0 then f_a f else f_b f) = f_a f). { exists [0; 0]. split; auto. repeat constructor; auto. }
  assert (NE : exists c, in_shape [f_n1 f; f_n2 f] c /\ (if nth 0 c 0 =? nth 1 c 0 then f_a f else f_b f) = f_b f).
  { destruct (Nat.leb_spec 2 (f_n1 f)); [exists [1; 0]|exists [0; 1]]; split; auto; repeat constructor; nia. }
  unfold potts_min, potts_max, potts_minMax. destruct (Z.ltb_spec (f_a f) (f_b f)); cbn [mm_min mm_max mm_init2]; repeat split; auto; intros c _; destruct (_ =? _); lia.
Qed.
(** A 1x1 table has only the value for equal labels. *)
Theorem C23_potts_single_refuted : exists f v, valued (potts_fun f) v /\ ~ is_min [f_n1 f; f_n2 f] v (potts_min f).
Proof.
  exists (mkFn2 1 1 5%Z 3%Z). eexists. split; [apply valued_potts; cbn; lia|]. intros [(c & Hc & E) _]. cbn in Hc, E.
  inversion Hc as [|x ? c1 ? Hx Hc1]; subst. inversion Hc1 as [|y ? c2 ? Hy Hc2]; subst. replace x with 0 in E by lia. replace y with 0 in E by lia. discriminate.
Qed.
Theorem C23_constant : forall sh a L, positive sh -> (Z.of_nat (size_of sh) < 2 ^ 31)%Z -> lists_all sh L -> let f := const_new Z sh a in
  exists v, valued (const_fun f) v /\ const_sum f = sum_list (map v L) /\ const_product f = prod_list (map v L) /\
    is_min sh v (const_min f) /\ is_max sh v (const_max f) /\ is_min sh v (mm_min (const_minMax f)) /\ is_max sh v (mm_max (const_minMax f)).
Proof.
  intros sh a L HP HB HL f. exists (fun _ => a). split. { split; auto. }
  assert (LL : length L = size_of sh). { rewrite (Permutation_length (lists_perm sh L HP HL)). unfold coords. rewrite map_length, seq_length. auto. }
  assert (EM : map (fun _ : list nat => a) L = repeat a (size_of sh)). { rewrite <- LL. clear. induction L; cbn; congruence. }
  unfold const_sum, const_product. change (cn_size f) with (accumulate_size sh). rewrite accumulate_size_spec by auto. change (cn_value f) with a. rewrite EM, sum_repeat, prod_repeat.
  split; auto. split; auto. assert (X : exists c, in_shape sh c /\ a = a). { eexists; split; [apply zero_in; eauto|auto]. }
  repeat split; auto; intros; cbn; lia.
Qed.
Print Assumptions C23_sweep. Print Assumptions C23_sweep_coordinates. Print Assumptions C23_switched_order_refuted. Print Assumptions C23_generic. Print Assumptions C23_accumulate.
Print Assumptions C23_potts. Print Assumptions C23_potts_single_refuted. Print Assumptions C23_constant.
Definition table (sh : list nat) (d : list Z) : gfun Z := mkG sh (explicit_call Z (mkExplicit sh d)).
Lemma valued_table : forall sh d, positive sh -> length d = size_of sh -> valued (table sh d) (fun c => nth (index_of sh c) d 0%Z).
Proof.
  intros sh d HP HL. split; auto. intros c Hc. destruct (explicit_call_spec Z (mkExplicit sh d) c HL Hc) as (v & H1 & H2). unfold table. cbn [gf_call gf_shape] in *. rewrite H2.
  f_equal. symmetry. apply nth_error_nth. auto.
Qed.
Example C23_case : exists v, valued (table [2; 3] [4; -2; 7; 0; 1; 3]%Z) v /\ lists_all [2; 3] (grid 2 3) /\ fun_min (table [2; 3] [4; -2; 7; 0; 1; 3]%Z) = Ret (-2)%Z /\
  fun_max (table [2; 3] [4; -2; 7; 0; 1; 3]%Z) = Ret 7%Z /\ fun_sum (table [2; 3] [4; -2; 7; 0; 1; 3]%Z) = Ret 13%Z /\
  potts_sum (mkFn2 2 3 10%Z 1%Z) = 24%Z /\ potts_product (mkFn2 2 3 3%Z 2%Z) = 144%Z.
Proof. eexists. split. { apply valued_table; [repeat constructor|reflexivity]. } split; [apply lists_grid|]. repeat split; vm_compute; reflexivity. Qed.
