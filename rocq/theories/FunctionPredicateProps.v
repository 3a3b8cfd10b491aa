(** C24 (property predicates) and operator== (C36). *)
From Verif Require Import Base ShapeSpec ShapeProofs IndexingModel IndexingProofs UtilModel PartitionsSpec FunctionsModel FunctionsProofs FunctionsProps FunctionBaseModel FunctionBaseProofs FunctionBaseProps.

(** All labels are the same. *)
Definition all_labels_equal (c : list nat) : Prop := forall i j, i < length c -> j < length c -> nth i c 0 = nth j c 0.
(** One value for all labelings with equal labels, one for all others. *)
Definition potts_form {T} (sh : list nat) (v : list nat -> T) : Prop :=
  exists e n, forall c, in_shape sh c -> (all_labels_equal c -> v c = e) /\ (~ all_labels_equal c -> v c = n).
(** The value depends only on which labels are equal. *)
Definition generalized_potts_form {T} (sh : list nat) (v : list nat -> T) : Prop :=
  forall c c', in_shape sh c -> in_shape sh c' -> same_partition c c' -> v c = v c'.
(** Componentwise minimum and maximum; submodularity. *)
Definition meet (c c' : list nat) : list nat := map (fun p => Nat.min (fst p) (snd p)) (combine c c').
Definition join (c c' : list nat) : list nat := map (fun p => Nat.max (fst p) (snd p)) (combine c c').
Definition submodular (sh : list nat) (v : list nat -> Z) : Prop :=
  forall c c', in_shape sh c -> in_shape sh c' -> (v (meet c c') + v (join c c') <= v c + v c')%Z.
(** Squared or absolute difference of two labels; truncated versions. *)
Definition dist (sq : bool) (x y : nat) : Z := if sq then ((Z.of_nat x - Z.of_nat y) ^ 2)%Z else Z.abs (Z.of_nat x - Z.of_nat y).
Definition difference_form (sq : bool) (s0 s1 : nat) (v : list nat -> Z) (w : Z) : Prop :=
  forall x y, x < s0 -> y < s1 -> v [x; y] = (w * dist sq x y)%Z.
Definition truncated_form (sq : bool) (s0 s1 : nat) (v : list nat -> Z) (w t : Z) : Prop :=
  forall x y, x < s0 -> y < s1 -> v [x; y] = (w * Z.min t (dist sq x y))%Z.

Lemma isEqual_spec : forall c, isEqualValueVector c = true <-> all_labels_equal c.
Proof.
  intros c. unfold isEqualValueVector, all_labels_equal. rewrite forallb_forall. split; intros H.
  - intros i j Hi Hj. assert (A := H i). assert (B := H j). rewrite in_seq in A, B. specialize (A ltac:(lia)). specialize (B ltac:(lia)). apply Nat.eqb_eq in A, B. congruence.
  - intros i Hi. apply in_seq in Hi. apply Nat.eqb_eq. apply H; lia.
Qed.
Lemma all_equal_0 : forall n, all_labels_equal (repeat 0 n).
Proof. intros n i j _ _. rewrite !nth_repeat. auto. Qed.
Lemma second_not_equal : forall sh, positive sh -> 2 <= length sh -> 1 < size_of sh -> ~ all_labels_equal (coord_of sh 1).
Proof.
  intros sh HP HL HS HA. destruct sh as [|s0 [|s1 r]]; cbn [length] in HL; try lia. pose proof HP as HP'. apply Forall_cons_iff in HP. destruct HP as [H0 HP].
  assert (HLc : length (coord_of (s0 :: s1 :: r) 1) = S (S (length r))). { rewrite coord_of_length. auto. }
  destruct (Nat.eq_dec s0 1) as [->|N0].
  - assert (X : coord_of (1 :: s1 :: r) 1 = coord_of (1 :: s1 :: r) 0).
    { rewrite (coord_of_0 _ HP'). apply nth_ext with 0 0. { rewrite HLc, repeat_length. auto. } intros i Hi. rewrite (HA i 0) by lia. rewrite nth_repeat. auto. }
    apply (f_equal (index_of (1 :: s1 :: r))) in X. rewrite !index_of_coord in X by (auto; lia). lia.
  - specialize (HA 0 1 ltac:(lia) ltac:(lia)). cbn [coord_of nth] in HA. rewrite (Nat.mod_small 1 s0), (Nat.div_small 1 s0) in HA by lia.
    apply Forall_cons_iff in HP. destruct HP as [H1 _]. rewrite Nat.mod_0_l in HA by lia. discriminate.
Qed.
Theorem C24_isPotts : forall T (eqv : T -> T -> bool) f v, (forall a b, eqv a b = true <-> a = b) -> valued f v -> length (gf_shape f) <> 1 ->
  exists b, isPotts T eqv f = Ret b /\ (b = true <-> potts_form (gf_shape f) v).
Proof.
  intros T eqv f v HE [HP HV] HD. unfold isPotts.
  assert (Z0 : in_shape (gf_shape f) (coord_of (gf_shape f) 0)) by (apply coord_of_in_shape; auto).
  assert (NE : 1 < gf_size f -> ~ all_labels_equal (coord_of (gf_shape f) 1)).
  { intros H. apply second_not_equal; auto. destruct (gf_shape f) as [|a [|b r]] eqn:E; cbn [length] in *; try lia. unfold gf_size in H. rewrite E in H. cbn in H. lia. }
  assert (E0 : all_labels_equal (coord_of (gf_shape f) 0)) by (rewrite coord_of_0 by auto; apply all_equal_0).
  assert (IX : forall c, in_shape (gf_shape f) c -> exists k, k < gf_size f /\ c = coord_of (gf_shape f) k).
  { intros c Hc. exists (index_of (gf_shape f) c). split; [apply index_of_lt; auto|]. rewrite coord_of_index; auto. }
  destruct (Nat.leb_spec (gf_size f) 2) as [L|L].
  - exists true. split; auto. split; auto. intros _. exists (v (coord_of (gf_shape f) 0)), (v (coord_of (gf_shape f) 1)). intros c Hc.
    destruct (IX c Hc) as (k & Hk & ->). destruct k as [|[|k]]; [| |lia]; split; auto; try contradiction. intros X. exfalso. apply NE; auto.
  - cbv zeta. assert (EI : sw_init (gf_dim f) = coord_of (gf_shape f) 0) by (rewrite coord_of_0; auto). rewrite EI, (HV _ Z0). cbn [bind]. unfold gf_dim.
    assert (Z1 : in_shape (gf_shape f) (coord_of (gf_shape f) 1)) by (apply coord_of_in_shape; auto).
    rewrite sw_next_spec by (auto; unfold gf_size in L; lia). cbn [bind]. rewrite (HV _ Z1). cbn [bind].
    rewrite sw_next_spec by (auto; unfold gf_size in L; lia). cbn [bind].
    rewrite (walk_all_spec f HP _ (fun c => if isEqualValueVector c then eqv (v (coord_of (gf_shape f) 0)) (v c) else eqv (v (coord_of (gf_shape f) 1)) (v c))) with (k := 2); auto; [|intros c Hc; rewrite (HV _ Hc); cbn [bind]; destruct (isEqualValueVector c); auto|lia].
    eexists; split; [reflexivity|]. rewrite forallb_forall. split.
    + intros H. exists (v (coord_of (gf_shape f) 0)), (v (coord_of (gf_shape f) 1)). intros c Hc. destruct (IX c Hc) as (k & Hk & ->).
      destruct k as [|[|k]]; [split; auto; contradiction|split; auto; intros X; exfalso; apply NE; auto; lia|].
      specialize (H (coord_of (gf_shape f) (S (S k)))). pose proof (isEqual_spec (coord_of (gf_shape f) (S (S k)))) as Q.
      assert (I : In (coord_of (gf_shape f) (S (S k))) (map (coord_of (gf_shape f)) (seq 2 (gf_size f - 2)))). { apply in_map. apply in_seq. lia. } specialize (H I).
      destruct (isEqualValueVector _); apply HE in H; split; intros X; auto; exfalso. { apply X, Q; auto. } { apply Q in X; discriminate. }
    + intros (e & n & H) c Hc. apply in_map_iff in Hc. destruct Hc as (k & <- & Hk). apply in_seq in Hk.
      assert (Zk : in_shape (gf_shape f) (coord_of (gf_shape f) k)) by (apply coord_of_in_shape; auto). destruct (H _ Z0) as [A _]. destruct (H _ Z1) as [_ B]. destruct (H _ Zk) as [C D].
      rewrite (A E0), (B (NE ltac:(lia))). pose proof (isEqual_spec (coord_of (gf_shape f) k)) as Q. destruct (isEqualValueVector _); apply HE; symmetry; [apply C, Q; auto|apply D; intros X; apply Q in X; discriminate].
Qed.
(** A function of one variable with the values 0, 5, 0 is reported to be Potts, although with one variable all labelings have
    equal labels and only constant functions have the form. *)
Theorem C24_isPotts_unary_refuted : exists f v, valued f v /\ isPotts Z Z.eqb f = Ret true /\ ~ potts_form (gf_shape f) v.
Proof.
  exists (table [3] [0; 5; 0]%Z). eexists. split; [apply valued_table; [repeat constructor|reflexivity]|]. split; [vm_compute; reflexivity|]. intros (e & n & H).
  assert (A : in_shape [3] [0]) by (repeat constructor). assert (B : in_shape [3] [1]) by (repeat constructor).
  assert (E : forall x, all_labels_equal [x]). { intros x [|i] [|j] Hi Hj; cbn in *; auto; lia. }
  destruct (H _ A) as [A' _]. destruct (H _ B) as [B' _]. specialize (A' (E _)). specialize (B' (E _)). cbn in A', B'. congruence.
Qed.
Print Assumptions C24_isPotts. Print Assumptions C24_isPotts_unary_refuted.

(** isGeneralizedPotts *)
Lemma gp_loops_spec : forall shape pre (test : list nat -> outcome bool) (P : list nat -> Prop),
  (forall c, in_shape shape c -> exists b, test (pre ++ c) = Ret b /\ (b = true <-> P (pre ++ c))) ->
  exists b, gp_loops shape pre test = Ret b /\ (b = true <-> forall c, in_shape shape c -> P (pre ++ c)).
Proof.
  induction shape as [|s shape IH]; intros pre test P H; cbn [gp_loops].
  - destruct (H [] ltac:(constructor)) as (b & E & B). rewrite app_nil_r in *. exists b. split; auto. rewrite B. split; [intros X c Hc; inversion Hc; rewrite app_nil_r; auto|].
    intros X. specialize (X [] ltac:(constructor)). rewrite app_nil_r in X; auto.
  - assert (G : forall n a, a + n = s -> exists b, allM (seq a n) (fun x => gp_loops shape (pre ++ [x]) test) = Ret b /\ (b = true <-> forall x c, a <= x -> x < s -> in_shape shape c -> P (pre ++ x :: c))).
    { induction n as [|n IHn]; intros a Ha; cbn [seq allM]. { exists true. split; auto. split; auto. intros; lia. }
      destruct (IH (pre ++ [a]) test P) as (b & E & B). { intros c Hc. rewrite <- app_assoc. cbn [app]. apply H. constructor; auto; lia. }
      rewrite E. cbn [bind]. destruct (IHn (S a) ltac:(lia)) as (b' & E' & B'). destruct b.
      - exists b'. split; auto. rewrite B'. split; intros X x c Hx Hs Hc; [|apply X; auto; lia]. destruct (Nat.eq_dec x a) as [->|]; [|apply X; auto; lia].
        destruct B as [B _]. specialize (B eq_refl c Hc). rewrite <- app_assoc in B. auto.
      - exists false. split; auto. split; [discriminate|]. intros X. apply B. intros c Hc. rewrite <- app_assoc. apply X; auto; lia. }
    destruct (G s 0 eq_refl) as (b & E & B). exists b. split; auto. rewrite B. split.
    + intros X c Hc. inversion Hc; subst. apply X; auto; lia.
    + intros X x c _ Hx Hc. apply X. constructor; auto.
Qed.
Lemma bools_eq_spec : forall p q, bools_eq p q = true <-> p = q.
Proof. intros p q. unfold bools_eq. destruct (list_eq_dec Bool.bool_dec p q); split; auto; discriminate. Qed.
Lemma eqb_iff : forall a b c d : nat, (a = b <-> c = d) <-> (a =? b) = (c =? d).
Proof. intros a b c d. destruct (Nat.eqb_spec a b), (Nat.eqb_spec c d); split; auto; try tauto; try discriminate. Qed.
Lemma pattern_partition : forall n l l', n = 2 \/ n = 3 \/ n = 4 -> length l = n -> length l' = n -> (gp_pattern l = gp_pattern l' <-> same_partition l l').
Proof.
  assert (SYM : forall l l' : list nat, length l = length l' -> (forall i j, i < j -> j < length l -> (nth i l 0 =? nth j l 0) = (nth i l' 0 =? nth j l' 0)) -> same_partition l l').
  { intros l l' HL H. split; auto. intros i j Hi Hj. destruct (Nat.lt_trichotomy i j) as [X|[X|X]].
    - apply eqb_iff. apply H; auto. - subst; tauto. - specialize (H j i X Hi). apply eqb_iff in H. split; intros E; symmetry; apply H; auto. }
  intros n l l' Hn L L'. split.
  - intros E. apply SYM; [congruence|]. destruct Hn as [->|[->| ->]].
    + destruct l as [|a [|b [|]]], l' as [|a' [|b' [|]]]; try discriminate. cbn in E. injection E as E1. intros i j Hi Hj. cbn [length] in Hj.
      destruct i as [|[|]], j as [|[|]]; try lia; cbn; auto.
    + destruct l as [|a [|b [|c [|]]]], l' as [|a' [|b' [|c' [|]]]]; try discriminate. cbn in E. injection E as E1 E2 E3. intros i j Hi Hj. cbn [length] in Hj.
      destruct i as [|[|[|]]], j as [|[|[|]]]; try lia; cbn; auto.
    + destruct l as [|a [|b [|c [|d [|]]]]], l' as [|a' [|b' [|c' [|d' [|]]]]]; try discriminate. cbn in E. injection E as E1 E2 E3 E4 E5 E6. intros i j Hi Hj. cbn [length] in Hj.
      destruct i as [|[|[|[|]]]], j as [|[|[|[|]]]]; try lia; cbn; auto.
  - intros [_ H]. assert (Q : forall i j, i < n -> j < n -> (nth i l 0 =? nth j l 0) = (nth i l' 0 =? nth j l' 0)) by (intros i j Hi Hj; apply eqb_iff; apply H; lia).
    destruct Hn as [->|[->| ->]].
    + destruct l as [|a [|b [|]]], l' as [|a' [|b' [|]]]; try discriminate. cbn [gp_pattern]. f_equal. apply (Q 0 1); lia.
    + destruct l as [|a [|b [|c [|]]]], l' as [|a' [|b' [|c' [|]]]]; try discriminate. cbn [gp_pattern]. f_equal; [apply (Q 1 2); lia|f_equal; [apply (Q 0 2); lia|f_equal; apply (Q 0 1); lia]].
    + destruct l as [|a [|b [|c [|d [|]]]]], l' as [|a' [|b' [|c' [|d' [|]]]]]; try discriminate. cbn [gp_pattern].
      f_equal; [apply (Q 2 3); lia|]. f_equal; [apply (Q 1 3); lia|]. f_equal; [apply (Q 0 3); lia|]. f_equal; [apply (Q 1 2); lia|]. f_equal; [apply (Q 0 2); lia|]. f_equal; apply (Q 0 1); lia.
Qed.
Definition gp_reps (n : nat) : list (list nat * list bool) := match n with 2 => gp2 | 3 => gp3 | 4 => gp4 | _ => [] end.
Lemma reps_pattern : forall n, n = 2 \/ n = 3 \/ n = 4 -> Forall (fun rp => gp_pattern (fst rp) = snd rp /\ length (fst rp) = n) (gp_reps n).
Proof. intros n [->|[->| ->]]; cbn [gp_reps]; repeat (apply Forall_cons; [split; reflexivity|]); apply Forall_nil. Qed.
Lemma reps_complete : forall n l, n = 2 \/ n = 3 \/ n = 4 -> length l = n -> In (gp_pattern l) (map snd (gp_reps n)).
Proof.
  intros n l [->|[->| ->]] L; cbn [gp_reps].
  - destruct l as [|a [|b [|]]]; try discriminate. cbn. destruct (a =? b); auto.
  - destruct l as [|a [|b [|c [|]]]]; try discriminate. cbn. destruct (Nat.eqb_spec b c), (Nat.eqb_spec a c), (Nat.eqb_spec a b); try (exfalso; congruence); tauto.
  - destruct l as [|a [|b [|c [|d [|]]]]]; try discriminate. cbn [gp_pattern].
    destruct (Nat.eqb_spec c d), (Nat.eqb_spec b d), (Nat.eqb_spec a d), (Nat.eqb_spec b c), (Nat.eqb_spec a c), (Nat.eqb_spec a b); try (exfalso; congruence); cbn; tauto.
Qed.
(** The labelings isGeneralizedPotts compares with must lie in the shape: extents of at least (1,2), (2,2,3) and (3,3,3,4). *)
Definition gp_extents (sh : list nat) : Prop :=
  match sh with
  | [a; b] => 1 <= a /\ 2 <= b
  | [a; b; c] => 2 <= a /\ 2 <= b /\ 3 <= c
  | [a; b; c; d] => 3 <= a /\ 3 <= b /\ 3 <= c /\ 4 <= d
  | _ => False
  end.
Lemma reps_in_shape : forall sh, gp_extents sh -> Forall (fun rp => in_shape sh (fst rp)) (gp_reps (length sh)).
Proof.
  intros sh H. destruct sh as [|a [|b [|c [|d [|]]]]]; cbn in H; try contradiction; cbn [length gp_reps];
  repeat (apply Forall_cons; [cbn [fst]; repeat (apply Forall2_cons; [lia|]); apply Forall2_nil|]); apply Forall_nil.
Qed.
Theorem C24_isGeneralizedPotts : forall T (eqv : T -> T -> bool) f v, (forall a b, eqv a b = true <-> a = b) -> valued f v -> gp_extents (gf_shape f) ->
  exists b, isGeneralizedPotts T eqv f = Ret b /\ (b = true <-> generalized_potts_form (gf_shape f) v).
Proof.
  intros T eqv f v HE [HP HV] HX.
  assert (HN : gf_dim f = 2 \/ gf_dim f = 3 \/ gf_dim f = 4). { unfold gf_dim. destruct (gf_shape f) as [|a [|b [|c [|d [|]]]]]; cbn in HX |- *; try contradiction; auto. }
  pose proof (reps_in_shape _ HX) as RS. fold (gf_dim f) in RS.
  assert (ER : isGeneralizedPotts T eqv f = (vs <- mapM (fun rp : list nat * list bool => v <- gf_call f (fst rp) ;; Ret (v, snd rp)) (gp_reps (gf_dim f)) ;; gp_loops (gf_shape f) [] (gp_test T eqv f vs))).
  { unfold isGeneralizedPotts. destruct HN as [E|[E|E]]; rewrite E; reflexivity. }
  rewrite ER. rewrite (mapM_Ret _ _ _ (fun rp => (v (fst rp), snd rp))).
  2:{ intros rp Hr. rewrite Forall_forall in RS. rewrite (HV _ (RS rp Hr)). auto. }
  cbn [bind]. pose proof (reps_pattern _ HN) as RP. rewrite Forall_forall in RP, RS.
  destruct (gp_loops_spec (gf_shape f) [] (gp_test T eqv f (map (fun rp => (v (fst rp), snd rp)) (gp_reps (gf_dim f))))
     (fun l => forall rp, In rp (gp_reps (gf_dim f)) -> gp_pattern l = snd rp -> v l = v (fst rp))) as (b & E & B).
  { intros c Hc. cbn [app]. unfold gp_test. erewrite allM_spec with (t := fun vp => if bools_eq (gp_pattern c) (snd vp) then eqv (v c) (fst vp) else true).
    - eexists; split; [reflexivity|]. rewrite forallb_forall. split.
      + intros H rp Hr Hq. specialize (H (v (fst rp), snd rp)). cbn [fst snd] in H. specialize (H ltac:(apply in_map_iff; eauto)). apply bools_eq_spec in Hq. rewrite Hq in H. apply HE; auto.
      + intros H vp Hv. apply in_map_iff in Hv. destruct Hv as (rp & <- & Hr). cbn [fst snd]. destruct (bools_eq _ _) eqn:Q; auto. apply HE. apply H; auto. apply bools_eq_spec; auto.
    - intros vp _. destruct (bools_eq _ _); auto. rewrite (HV c Hc). auto. }
  exists b. split; auto. rewrite B. cbn [app]. split.
  - intros H c c' Hc Hc' HS. assert (Lc : length c = gf_dim f) by (apply in_shape_length; auto). assert (Lc' : length c' = gf_dim f) by (apply in_shape_length; auto).
    apply (pattern_partition _ c c' HN Lc Lc') in HS. pose proof (reps_complete _ c HN Lc) as I. apply in_map_iff in I. destruct I as (rp & Er & Hr).
    rewrite (H c Hc rp Hr), (H c' Hc' rp Hr); auto. congruence.
  - intros H c Hc rp Hr Hq. apply H; auto. destruct (RP rp Hr) as [RP1 RP2]. apply (pattern_partition (gf_dim f)); auto; [apply in_shape_length; auto|]. congruence.
Qed.
(** Smaller shapes are read behind their end; for other numbers of variables the answer is always no. *)
Theorem C24_isGeneralizedPotts_refuted :
  (exists f v, valued f v /\ generalized_potts_form (gf_shape f) v /\ gf_shape f = [2; 2; 2] /\ isGeneralizedPotts Z Z.eqb f = Undef) /\
  (exists f v, valued f v /\ generalized_potts_form (gf_shape f) v /\ length (gf_shape f) = 5 /\ isGeneralizedPotts Z Z.eqb f = Ret false).
Proof.
  split.
  - exists (table [2; 2; 2] (repeat 3%Z 8)), (fun _ => 3%Z). split; [|split; [red; auto|split; [reflexivity|vm_compute; reflexivity]]].
    destruct (valued_table [2; 2; 2] (repeat 3%Z 8)) as [H1 H2]; [repeat constructor|reflexivity|]. split; auto. intros c Hc. rewrite H2 by auto. f_equal.
      pose proof (index_of_lt _ _ Hc) as HI. unfold gf_shape in HI. cbn [table] in HI. rewrite nth_indep with (d' := 3%Z) by exact HI. rewrite nth_repeat. auto.
  - exists (mkG [1; 1; 1; 1; 1] (fun _ => Ret 3%Z)), (fun _ => 3%Z). split; [split; [repeat constructor|auto]|]. split; [red; auto|]. split; auto.
Qed.
Print Assumptions C24_isGeneralizedPotts. Print Assumptions C24_isGeneralizedPotts_refuted.

(** isSubmodular *)
Theorem C24_isSubmodular : forall f v, valued f v ->
  (length (gf_shape f) = 1 \/ gf_shape f = [2; 2] -> exists b, isSubmodular f = Ret b /\ (b = true <-> submodular (gf_shape f) v)) /\
  (length (gf_shape f) <> 1 -> gf_shape f <> [2; 2] -> isSubmodular f = Throw).
Proof.
  intros f v [HP HV]. split.
  - intros [E|E].
    + exists true. unfold isSubmodular, gf_dim. rewrite E. split; auto. split; auto. intros _ c c' Hc Hc'.
      apply in_shape_length in Hc, Hc'. destruct c as [|x [|]], c' as [|y [|]]; cbn in Hc, Hc'; try lia. cbn. destruct (Nat.le_ge_cases x y).
      * rewrite Nat.min_l, Nat.max_r by auto. lia. * rewrite Nat.min_r, Nat.max_l by auto. lia.
    + unfold isSubmodular, gf_dim. rewrite E in *. cbn [length Nat.eqb negb]. rewrite (rd_Ret _ _ _ 2), (rd_Ret _ _ _ 2) by auto. cbn [bind Nat.eqb negb orb].
      rewrite !HV by (repeat constructor). cbn [bind]. eexists; split; [reflexivity|]. rewrite Z.leb_le. split.
      * intros H c c' Hc Hc'. inversion Hc as [|x0 ? c1 ? Hx0 Hc1]; subst. inversion Hc1 as [|x1 ? c2 ? Hx1 Hc2]; subst. inversion Hc2; subst.
        inversion Hc' as [|y0 ? c1' ? Hy0 Hc1']; subst. inversion Hc1' as [|y1 ? c2' ? Hy1 Hc2']; subst. inversion Hc2'; subst.
        destruct x0 as [|[|]], x1 as [|[|]], y0 as [|[|]], y1 as [|[|]]; try lia; cbn; lia.
      * intros H. specialize (H [1; 0] [0; 1]). cbn in H. apply H; repeat constructor.
  - intros H1 H2. unfold isSubmodular, gf_dim. destruct (gf_shape f) as [|a [|b [|c r]]]; cbn [length] in *; try lia; try reflexivity.
    cbn [Nat.eqb negb]. rewrite (rd_Ret _ _ _ a), (rd_Ret _ _ _ b) by auto. cbn [bind]. destruct (Nat.eqb_spec a 2), (Nat.eqb_spec b 2); subst; cbn; auto. contradiction.
Qed.
Print Assumptions C24_isSubmodular.

(** Differences *)
Lemma absd_abs : forall x y, absd x y = Z.abs (Z.of_nat x - Z.of_nat y).
Proof. intros x y. unfold absd. destruct (Nat.ltb_spec x y); lia. Qed.
Lemma absd_dist : forall (sq : bool) x y, (if sq then absd x y * absd x y else absd x y)%Z = dist sq x y.
Proof. intros sq x y. rewrite absd_abs. unfold dist. destruct sq; auto. rewrite Z.pow_2_r. nia. Qed.
Lemma allM2_spec : forall s0 s1 (test : nat -> nat -> outcome bool) (t : nat -> nat -> bool), (forall x y, x < s0 -> y < s1 -> test x y = Ret (t x y)) ->
  exists b, allM (seq 0 s1) (fun y => allM (seq 0 s0) (fun x => test x y)) = Ret b /\ (b = true <-> forall x y, x < s0 -> y < s1 -> t x y = true).
Proof.
  intros s0 s1 test t H. rewrite (allM_spec _ _ _ (fun y => forallb (fun x => t x y) (seq 0 s0))).
  - eexists; split; [reflexivity|]. rewrite forallb_forall. split.
    + intros Q x y Hx Hy. specialize (Q y ltac:(apply in_seq; lia)). rewrite forallb_forall in Q. apply Q. apply in_seq; lia.
    + intros Q y Hy. apply forallb_forall. intros x Hx. apply in_seq in Hx, Hy. apply Q; lia.
  - intros y Hy. apply allM_spec. intros x Hx. apply in_seq in Hx, Hy. apply H; lia.
Qed.
Theorem C24_isDifference : forall sq f v,
  (forall s0 s1, valued f v -> gf_shape f = [s0; s1] -> 2 <= s0 -> exists b, isDifference sq f = Ret b /\ (b = true <-> exists w, difference_form sq s0 s1 v w)) /\
  (length (gf_shape f) <> 2 -> isDifference sq f = Ret false).
Proof.
  intros sq f v. split.
  - intros s0 s1 [HP HV] ES H0. unfold isDifference, gf_dim. rewrite ES in *. cbn [length Nat.eqb]. rewrite (rd_Ret _ _ _ s0), (rd_Ret _ _ _ s1) by auto. cbn [bind].
    assert (H1 : 0 < s1). { apply Forall_cons_iff in HP. destruct HP as [_ HP]. apply Forall_cons_iff in HP. tauto. }
    rewrite HV by (repeat constructor; lia). cbn [bind]. cbv zeta.
    destruct (allM2_spec s0 s1 (fun x y => v0 <- gf_call f [x; y] ;; Ret (v0 =? (if sq then absd x y * absd x y else absd x y) * v [1; 0]%nat)%Z) (fun x y => (v [x; y] =? dist sq x y * v [1; 0]%nat)%Z)) as (b & E & B).
    { intros x y Hx Hy. rewrite HV by (repeat constructor; auto). cbn [bind]. rewrite absd_dist. auto. }
    exists b. split; auto. rewrite B. split.
    + intros H. exists (v [1; 0]). intros x y Hx Hy. specialize (H x y Hx Hy). apply Z.eqb_eq in H. lia.
    + intros [w H] x y Hx Hy. apply Z.eqb_eq. rewrite (H x y Hx Hy). rewrite (H 1 0) by lia. assert (D : dist sq 1 0 = 1%Z) by (destruct sq; reflexivity). rewrite D. lia.
  - intros H. unfold isDifference, gf_dim. destruct (Nat.eqb_spec (length (gf_shape f)) 2); [contradiction|auto].
Qed.
(** With one label on the first variable the value at (1,0) is read although it is not in the shape. *)
Theorem C24_isDifference_refuted : forall sq, exists f v, valued f v /\ difference_form sq 1 1 v 4%Z /\ gf_shape f = [1; 1] /\ isDifference sq f = Undef.
Proof.
  intros sq. exists (table [1; 1] [0]%Z). eexists. split; [apply valued_table; [repeat constructor|reflexivity]|]. split.
  - intros x y Hx Hy. replace x with 0 by lia. replace y with 0 by lia. destruct sq; reflexivity.
  - split; [reflexivity|destruct sq; vm_compute; reflexivity].
Qed.
Print Assumptions C24_isDifference. Print Assumptions C24_isDifference_refuted.

(** isTruncated...Difference: it recognizes every truncated difference with nonnegative weight and truncation and at most as many
    labels on the second variable as on the first. Missing: the converse and the other cases, which fail (below). *)
Theorem C24_isTruncatedDifference_partial : forall sq f v s0 s1 w t, valued f v -> gf_shape f = [s0; s1] -> 2 <= s0 -> s1 <= s0 -> (0 <= w)%Z -> (0 <= t)%Z ->
  truncated_form sq s0 s1 v w t -> isTruncatedDifference sq f = Ret true.
Proof.
  intros sq f v s0 s1 w t [HP HV] ES H0 HS Hw Ht HF. unfold isTruncatedDifference, gf_dim. rewrite ES in *. cbn [length Nat.eqb]. rewrite (rd_Ret _ _ _ s0), (rd_Ret _ _ _ s1) by auto. cbn [bind].
  assert (H1 : 0 < s1). { apply Forall_cons_iff in HP. destruct HP as [_ HP]. apply Forall_cons_iff in HP. tauto. }
  rewrite (HV [1; 0]) by (repeat constructor; lia). cbn [bind]. rewrite (HV [s0 - 1; 0]) by (repeat constructor; lia). cbn [bind]. cbv zeta.
  match goal with |- allM _ (fun y => allM _ (fun x => @?T x y)) = _ => destruct (allM2_spec s0 s1 T (fun _ _ => true)) as (b & E & B) end.
  - intros x y Hx Hy. rewrite HV by (repeat constructor; auto). cbn [bind]. f_equal. rewrite absd_dist. rewrite !HF by lia.
    assert (D1 : dist sq 1 0 = 1%Z) by (destruct sq; reflexivity). rewrite D1.
    assert (DM : (0 <= dist sq x y <= dist sq (s0 - 1) 0)%Z).
    { assert (A : (Z.abs (Z.of_nat x - Z.of_nat y) <= Z.of_nat (s0 - 1))%Z) by lia. unfold dist. destruct sq; [|lia].
      assert (Q : forall u, (u ^ 2 = Z.abs u * Z.abs u)%Z) by (intros u; rewrite Z.pow_2_r; lia). rewrite !Q.
      split; [nia|]. apply Z.mul_le_mono_nonneg; lia. }
    assert (DZ : (dist sq x y = 0 \/ 1 <= dist sq x y)%Z) by lia.
    set (d := dist sq x y) in *. set (D := dist sq (s0 - 1) 0) in *.
    destruct (Z.eqb_spec (w * Z.min t d) (d * (w * Z.min t 1))); auto. cbn [negb andb].
    destruct (Z.eqb_spec (w * Z.min t d) (w * Z.min t D)), (Z.ltb_spec (w * Z.min t D) (d * (w * Z.min t 1))); auto; exfalso.
    + destruct (Z.le_gt_cases d t); [rewrite (Z.min_r t d) in * by lia; destruct (Z.eq_dec t 0); [nia|]; rewrite (Z.min_r t 1) in * by lia; nia|].
      rewrite (Z.min_l t d), (Z.min_l t D) in * by lia. destruct (Z.eq_dec t 0); [subst; rewrite (Z.min_l 0 1) in * by lia; nia|]. rewrite (Z.min_r t 1) in * by lia. nia.
    + destruct (Z.le_gt_cases d t); [rewrite (Z.min_r t d) in * by lia; destruct (Z.eq_dec t 0); [nia|]; rewrite (Z.min_r t 1) in * by lia; nia|].
      rewrite (Z.min_l t d), (Z.min_l t D) in * by lia. lia.
    + destruct (Z.le_gt_cases d t); [rewrite (Z.min_r t d) in * by lia; destruct (Z.eq_dec t 0); [nia|]; rewrite (Z.min_r t 1) in * by lia; nia|].
      rewrite (Z.min_l t d), (Z.min_l t D) in * by lia. lia.
  - etransitivity; [exact E|]. f_equal. apply B. auto.
Qed.
(** Neither sound nor complete: a table of a different form is accepted; a truncated difference with more labels on the second
    variable is rejected, and so is one with a negative weight. *)
Theorem C24_isTruncatedDifference_refuted :
  (exists f v, valued f v /\ gf_shape f = [4; 4] /\ isTruncatedDifference false f = Ret true /\ forall w t, ~ truncated_form false 4 4 v w t) /\
  (exists f v, valued f v /\ gf_shape f = [2; 4] /\ truncated_form false 2 4 v 1%Z 2%Z /\ isTruncatedDifference false f = Ret false) /\
  (exists f v, valued f v /\ gf_shape f = [4; 4] /\ truncated_form false 4 4 v (-1)%Z 2%Z /\ isTruncatedDifference false f = Ret false).
Proof.
  split; [|split].
  - exists (table [4; 4] [0; 1; 2; 1;  1; 0; 1; 2;  2; 1; 0; 1;  1; 2; 1; 0]%Z). eexists. split; [apply valued_table; [repeat constructor|reflexivity]|]. split; auto. split; [vm_compute; reflexivity|].
    intros w t H. pose proof (H 1 0 ltac:(lia) ltac:(lia)) as A. pose proof (H 2 0 ltac:(lia) ltac:(lia)) as B. pose proof (H 3 0 ltac:(lia) ltac:(lia)) as C.
    cbn -[Z.mul Z.min] in A, B, C. assert (w <> 0)%Z by nia. assert (Z.min t 1 <= Z.min t 2 <= Z.min t 3)%Z by lia. nia.
  - exists (table [2; 4] [0; 1;  1; 0;  2; 1;  2; 2]%Z). eexists. split; [apply valued_table; [repeat constructor|reflexivity]|]. split; auto. split; [|vm_compute; reflexivity].
    intros x y Hx Hy. destruct x as [|[|]], y as [|[|[|[|]]]]; try lia; reflexivity.
  - exists (table [4; 4] [0; -1; -2; -2;  -1; 0; -1; -2;  -2; -1; 0; -1;  -2; -2; -1; 0]%Z). eexists. split; [apply valued_table; [repeat constructor|reflexivity]|]. split; auto. split; [|vm_compute; reflexivity].
    intros x y Hx Hy. destruct x as [|[|[|[|]]]], y as [|[|[|[|]]]]; try lia; reflexivity.
Qed.
Print Assumptions C24_isTruncatedDifference_partial. Print Assumptions C24_isTruncatedDifference_refuted.
Example C24_cases : (exists v, valued (table [3; 3] [0; 1; 2;  1; 0; 1;  2; 1; 0]%Z) v /\ isDifference false (table [3; 3] [0; 1; 2;  1; 0; 1;  2; 1; 0]%Z) = Ret true /\
    isPotts Z Z.eqb (table [3; 3] [0; 1; 2;  1; 0; 1;  2; 1; 0]%Z) = Ret false) /\
  isPotts Z Z.eqb (table [2; 3] [0; 1;  1; 0;  1; 1]%Z) = Ret true /\ isGeneralizedPotts Z Z.eqb (table [2; 3] [0; 1;  1; 0;  1; 1]%Z) = Ret true /\ gp_extents [2; 3] /\
  isSubmodular (table [2; 2] [0; 1; 1; 0]%Z) = Ret true /\ isSubmodular (table [2; 2] [1; 0; 0; 1]%Z) = Ret false /\
  isTruncatedDifference false (table [3; 3] [0; 1; 1;  1; 0; 1;  1; 1; 0]%Z) = Ret true.
Proof.
  split. { eexists. split; [apply valued_table; [repeat constructor|reflexivity]|]. split; vm_compute; reflexivity. }
  split; [vm_compute; reflexivity|]. split; [vm_compute; reflexivity|]. split; [cbn; lia|]. repeat split; vm_compute; reflexivity.
Qed.

(** C36: operator== *)
Theorem C36_equality : forall T (eqv : T -> T -> bool) fa fb va vb, (forall a b, eqv a b = true <-> a = b) -> valued fa va -> valued fb vb ->
  exists b, fun_eq T eqv fa fb = Ret b /\ (b = true <-> gf_shape fa = gf_shape fb /\ forall c, in_shape (gf_shape fa) c -> va c = vb c).
Proof.
  intros T eqv fa fb va vb HE [PA VA] [PB VB]. unfold fun_eq. unfold gf_dim. destruct (Nat.eqb_spec (length (gf_shape fa)) (length (gf_shape fb))) as [L|L].
  2:{ exists false. split; auto. split; [discriminate|]. intros [E _]. congruence. }
  rewrite (allM_spec _ _ _ (fun i => nth i (gf_shape fa) 0 =? nth i (gf_shape fb) 0)). 2:{ intros i Hi. apply in_seq in Hi. rewrite (rd_nth _ _ i 0), (rd_nth _ _ i 0) by lia. auto. }
  cbn [bind]. assert (ES : forallb (fun i => nth i (gf_shape fa) 0 =? nth i (gf_shape fb) 0) (seq 0 (length (gf_shape fa))) = true <-> gf_shape fa = gf_shape fb).
  { rewrite forallb_forall. split.
    - intros H. apply nth_ext with 0 0; auto. intros i Hi. apply Nat.eqb_eq. apply H. apply in_seq; lia.
    - intros -> i _. apply Nat.eqb_refl. }
  destruct (forallb _ _).
  - destruct ES as [ES _]. specialize (ES eq_refl).
    rewrite (walk_all_spec fa PA _ (fun c => eqv (va c) (vb c))) with (k := 0); auto.
    + eexists; split; [reflexivity|]. rewrite forallb_forall. split.
      * intros H. split; auto. intros c Hc. apply HE. apply H. change (In c (coords (gf_shape fa))). apply in_coords; auto.
      * intros [_ H] c Hc. apply HE. apply H. change (In c (coords (gf_shape fa))) in Hc. apply in_coords in Hc; auto.
    + intros c Hc. rewrite VA by auto. cbn [bind]. rewrite VB by (rewrite <- ES; auto). auto.
    + intros _. unfold sw_init. rewrite coord_of_0; auto.
  - exists false. split; auto. split; [discriminate|]. intros [E _]. apply ES in E. discriminate.
Qed.
Print Assumptions C36_equality.
Example C36_equality_case : fun_eq Z Z.eqb (table [2; 3] [0; 1; 1; 0; 1; 1]%Z) (potts_fun (mkFn2 2 3 0 1)%Z) = Ret true /\ fun_eq Z Z.eqb (table [2; 2] [0; 1; 1; 0]%Z) (potts_fun (mkFn2 2 3 0 1)%Z) = Ret false.
Proof. split; vm_compute; reflexivity. Qed.
