(** C50: hard constraint functions. *)
From Coq Require Import QArith Qcanon Sorted Permutation Lqa.
From Verif Require Import Base ShapeSpec ShapeProofs IndexingModel UtilModel FunctionsModel FunctionsSpec FunctionsProofs FunctionsProps ConstraintModel ConstraintSpec ConstraintProofs ConstraintCounts ConstraintFuncs ConstraintLabels ConstraintRound.
Open Scope nat_scope.

(** ** A sort that is a std::sort and is undefined where the comparison is no strict weak ordering *)
Section Sort.
Context {A : Type} (lt : A -> A -> bool).
Fixpoint ins (x : A) (l : list A) : list A := match l with [] => [x] | y :: t => if lt y x then y :: ins x t else x :: y :: t end.
Definition weakb (l : list A) : bool :=
  forallb (fun a => negb (lt a a)) l &&
  forallb (fun a => forallb (fun b => forallb (fun c => negb (lt a b && lt b c) || lt a c) l) l) l &&
  forallb (fun a => forallb (fun b => forallb (fun c => (lt a b || lt b a || lt b c || lt c b) || negb (lt a c)) l) l) l.
Definition checked_sort (l : list A) : outcome (list A) := if weakb l then Ret (fold_right ins [] l) else Undef.
Lemma weakb_ok : forall l, strict_weak lt l -> weakb l = true.
Proof.
  intros l (H1 & H2 & H3). unfold weakb. rewrite !andb_true_iff, !forallb_forall. repeat split.
  - intros a Ha. rewrite H1; auto.
  - intros a Ha. apply forallb_forall. intros b Hb. apply forallb_forall. intros c Hc. destruct (lt a b) eqn:E1, (lt b c) eqn:E2; cbn; auto. eauto.
  - intros a Ha. apply forallb_forall. intros b Hb. apply forallb_forall. intros c Hc. destruct (lt a b) eqn:E1, (lt b a) eqn:E2, (lt b c) eqn:E3, (lt c b) eqn:E4; cbn; auto. rewrite (H3 a b c); auto.
Qed.
Lemma ins_perm : forall x l, Permutation (x :: l) (ins x l).
Proof. intros x. induction l as [|y l IH]; cbn; auto. destruct (lt y x); auto. eapply perm_trans; [apply perm_swap|]. auto. Qed.
Lemma sort_perm : forall l, Permutation l (fold_right ins [] l).
Proof. induction l as [|x l IH]; cbn; auto. eapply perm_trans; [|apply ins_perm]. auto. Qed.
Lemma cotrans : forall l x y z, strict_weak lt l -> In x l -> In y l -> In z l -> lt z y = false -> lt y x = false -> lt z x = false.
Proof.
  intros l x y z (H1 & H2 & H3) Hx Hy Hz E1 E2. destruct (lt z x) eqn:E; auto. destruct (lt y z) eqn:E3. { rewrite (H2 y z x) in E2; auto. } destruct (lt x y) eqn:E4. { rewrite (H2 z x y) in E1; auto. }
  rewrite (H3 z y x) in E; auto.
Qed.
Lemma checked_sorts : sorts lt checked_sort.
Proof.
  intros l HW. unfold checked_sort. rewrite (weakb_ok l HW). eexists. split; [reflexivity|]. split; [apply sort_perm|].
  assert (I : forall x k, In x l -> incl k l -> StronglySorted (fun a b => lt b a = false) k -> StronglySorted (fun a b => lt b a = false) (ins x k)).
  { intros x k Hx HI HS. induction HS as [|y k S IH F]; cbn. { repeat constructor. } assert (Hy : In y l) by (apply HI; cbn; auto). assert (HI' : incl k l) by (intros z Hz; apply HI; cbn; auto). destruct (lt y x) eqn:E.
    - constructor; auto. apply Forall_forall. intros z Hz. apply (Permutation_in _ (Permutation_sym (ins_perm x k))) in Hz as [<-|Hz]; [|rewrite Forall_forall in F; auto]. destruct HW as (H1 & H2 & _). destruct (lt x y) eqn:E2; auto.
      assert (X : lt x x = true) by (apply (H2 x y x); auto). rewrite (H1 x Hx) in X. discriminate.
    - constructor; [constructor; auto|]. constructor; auto. rewrite Forall_forall in *. intros z Hz. eapply (cotrans l x y z); eauto. }
  assert (G : forall k, incl k l -> StronglySorted (fun a b => lt b a = false) (fold_right ins [] k)).
  { induction k as [|x k IH]; intros HI; cbn; [constructor|]. apply I; [apply HI; cbn; auto| |apply IH; intros z Hz; apply HI; cbn; auto]. intros z Hz. apply HI. right. apply (Permutation_in _ (Permutation_sym (sort_perm k))). auto. }
  apply G. apply incl_refl.
Qed.
End Sort.

(** ** Linear constraint functions: value, challenge and challengeRelaxed, for every std::sort *)
Theorem C50_linear : forall iv_sort TOL sh cs valid invalid, sorts iv_lt iv_sort -> (0 <= TOL)%Qc -> Forall (lc_legal sh) cs -> strict_weak iv_lt (all_ivs cs) ->
  exists f, lcf_new iv_sort sh cs valid invalid = Ret f /\ cf_constraints (lcf_cf iv_sort TOL) f = cs /\
    constraint_function (lcf_cf iv_sort TOL) f sh valid invalid TOL /\
    StronglySorted (fun a b => iv_lt b a = false) (cf_indicators (lcf_cf iv_sort TOL) f) /\
    (forall v, In v (cf_indicators (lcf_cf iv_sort TOL) f) -> exists c, In c cs /\ In v (lc_ivs c)).
Proof.
  intros iv_sort TOL sh cs valid invalid HS HT HL HW. destruct (linear_ok iv_sort TOL sh cs valid invalid HS HT HL HW) as (f & E & C & EC & SO & HI). exists f. repeat (split; auto).
  intros v Hv. apply HI in Hv. unfold all_ivs in Hv. apply in_concat in Hv as (vs & H1 & H2). apply in_map_iff in H1 as (c & <- & Hc). eauto.
Qed.
(** Indicator variables of one pair each can always be sorted. *)
Definition one_pair (v : iv) : Prop := exists p, iv_pairs v = [p].
Theorem C50_one_pair_sortable : forall l, Forall one_pair l -> strict_weak iv_lt l.
Proof.
  assert (G : forall v w, one_pair v -> one_pair w -> exists a b c d, iv_pairs v = [(a, b)] /\ iv_pairs w = [(c, d)] /\
    iv_lt v w = (lop_code (iv_op v) <? lop_code (iv_op w)) || ((lop_code (iv_op v) =? lop_code (iv_op w)) && ((a <? c) || ((a =? c) && (b <? d))))).
  { intros v w [[a b] Hv] [[c d] Hw]. exists a, b, c, d. split; auto. split; auto. unfold iv_lt. rewrite Hv, Hw. cbn [length all_pairs fst snd]. change (1 <? 1) with false. change (1 =? 1) with true. change (1 =? 0) with false. cbv iota. set (m := lop_code (iv_op v)). set (n := lop_code (iv_op w)).
    destruct (Nat.ltb_spec m n); cbn [orb]; auto. destruct (Nat.ltb_spec n m); destruct (Nat.eqb_spec m n); cbn [andb]; try lia; auto.
    destruct (Nat.ltb_spec c a), (Nat.ltb_spec a c), (Nat.eqb_spec a c); cbn [andb orb]; try lia; auto. destruct (Nat.leb_spec d b), (Nat.ltb_spec b d); cbn [negb]; auto; lia. }
  intros l HF. rewrite Forall_forall in HF. split; [|split].
  - intros v Hv. destruct (G v v) as (a & b & c & d & E1 & E2 & ->); auto. rewrite E1 in E2. injection E2 as -> ->. rewrite !Nat.ltb_irrefl, Nat.eqb_refl. rewrite andb_false_r. auto.
  - intros u v w Hu Hv Hw. destruct (G u v) as (a & b & c & d & E1 & E2 & ->); auto. destruct (G v w) as (a' & b' & c' & d' & E3 & E4 & ->); auto. destruct (G u w) as (a1 & b1 & c1 & d1 & E5 & E6 & ->); auto.
    rewrite E2 in E3. injection E3 as <- <-. rewrite E1 in E5. injection E5 as <- <-. rewrite E4 in E6. injection E6 as <- <-. rewrite !orb_true_iff, !andb_true_iff, !orb_true_iff, !andb_true_iff, !Nat.ltb_lt, !Nat.eqb_eq. lia.
  - intros u v w Hu Hv Hw. destruct (G u v) as (a & b & c & d & E1 & E2 & ->); auto. destruct (G v u) as (a2 & b2 & c2 & d2 & F1 & F2 & ->); auto. destruct (G v w) as (a' & b' & c' & d' & E3 & E4 & ->); auto. destruct (G w v) as (a3 & b3 & c3 & d3 & F3 & F4 & ->); auto. destruct (G u w) as (a1 & b1 & c1 & d1 & E5 & E6 & ->); auto.
    rewrite E2 in *. rewrite E1 in *. rewrite E4 in *. injection E3 as <- <-. injection E5 as <- <-. injection E6 as <- <-. injection F1 as <- <-. injection F2 as <- <-. injection F3 as <- <-. injection F4 as <- <-.
    rewrite !orb_false_iff, !andb_false_iff, !orb_false_iff, !andb_false_iff, !Nat.ltb_ge, !Nat.eqb_neq. lia.
Qed.
(** Three indicator variables over two variables of two labels whose comparison is no strict weak ordering: the constructor of the
    function calls std::sort outside its contract, and one std::sort, undefined there, leaves no function. *)
Definition iv00 : iv := iv_new [(0, 0); (1, 0)] And.
Definition iv01 : iv := iv_new [(0, 0); (1, 1)] And.
Definition iv11 : iv := iv_new [(0, 1); (1, 1)] And.
Definition bad_lc : lc := mkLC [iv00; iv01; iv11] [1%Qc; 1%Qc; 1%Qc] 1%Qc LessEqual.
Lemma bad_legal : lc_legal [2; 2] bad_lc.
Proof. split; auto. repeat constructor; cbn; auto; try (eexists; reflexivity); lia. Qed.
Theorem C50_sort_refuted : ~ (forall l, Forall iv_made l -> strict_weak iv_lt l).
Proof. intros H. destruct (H [iv00; iv01; iv11]) as (_ & _ & H3). { repeat constructor; eexists; reflexivity. } assert (X : iv_lt iv00 iv11 = false). { apply (H3 iv00 iv01 iv11); cbn; auto. } vm_compute in X. discriminate. Qed.
Theorem C50_linear_refuted : ~ (forall iv_sort sh cs valid invalid, sorts iv_lt iv_sort -> Forall (lc_legal sh) cs -> exists f, lcf_new iv_sort sh cs valid invalid = Ret f).
Proof.
  intros H. destruct (H (checked_sort iv_lt) [2; 2] [bad_lc] 0%Qc 1%Qc (checked_sorts iv_lt)) as (f & E). { constructor; auto. apply bad_legal. } vm_compute in E. discriminate.
Qed.
(** ** The comparisons of indicator variables *)
Lemma pair_le_antisym : forall p q, pair_le p q = true -> pair_le q p = true -> p = q.
Proof. intros [a b] [c d]. unfold pair_le. cbn [fst snd]. rewrite !orb_true_iff, !andb_true_iff, !Nat.ltb_lt, !Nat.eqb_eq, !Nat.leb_le. intros. f_equal; lia. Qed.
Lemma pair_sort_perm : forall l, Permutation l (pair_sort l).
Proof.
  assert (I : forall p l, Permutation (p :: l) (pair_ins p l)). { intros p. induction l as [|q l IH]; cbn; auto. destruct (pair_le p q); auto. eapply perm_trans; [apply perm_swap|]. auto. }
  induction l as [|p l IH]; cbn; auto. eapply perm_trans; [|apply I]. auto.
Qed.
Lemma sorted_unique : forall a b, StronglySorted (fun p q => pair_le p q = true) a -> StronglySorted (fun p q => pair_le p q = true) b -> Permutation a b -> a = b.
Proof.
  induction a as [|p a IH]; intros b Sa Sb P. { apply Permutation_nil in P. auto. } destruct b as [|q b]. { apply Permutation_sym, Permutation_nil in P. discriminate. }
  inversion Sa as [|? ? Sa' Fa]; subst. inversion Sb as [|? ? Sb' Fb]; subst. rewrite Forall_forall in *. assert (E : p = q).
  { assert (I1 : In p (q :: b)) by (eapply Permutation_in; [apply P|cbn; auto]). assert (I2 : In q (p :: a)) by (eapply Permutation_in; [apply Permutation_sym, P|cbn; auto]). destruct I1 as [I1|I1], I2 as [I2|I2]; auto. apply pair_le_antisym; auto. }
  subst q. f_equal. apply IH; auto. eapply Permutation_cons_inv; eauto.
Qed.
Theorem C50_equal : forall ps qs o o', (iv_eqb (iv_new ps o) (iv_new qs o') = true <-> o = o' /\ Permutation ps qs) /\ iv_neb (iv_new ps o) (iv_new qs o') = negb (iv_eqb (iv_new ps o) (iv_new qs o')).
Proof.
  intros ps qs o o'. split. 2: { unfold iv_neb, iv_eqb. destruct (_ =? _), (pairs_eqb _ _); auto. } rewrite iv_eqb_eq. split.
  - intros E. injection E as -> E. split; auto. eapply perm_trans; [apply pair_sort_perm|]. rewrite E. apply Permutation_sym, pair_sort_perm.
  - intros [-> P]. unfold iv_new. f_equal. apply sorted_unique; try apply pair_sort_sorted. eapply perm_trans; [apply Permutation_sym, pair_sort_perm|]. eapply perm_trans; [apply P|apply pair_sort_perm].
Qed.
(** Built pair by pair or at once: the same indicator variable, and each pair in it. *)
Theorem C50_add : forall ps o a b, iv_add (iv_new ps o) a b = iv_new ((a, b) :: ps) o /\ forall p, In p (iv_pairs (iv_new ps o)) <-> In p ps.
Proof.
  intros ps o a b. split.
  - unfold iv_add, iv_new. cbn [iv_op iv_pairs]. f_equal. apply sorted_unique; try apply pair_sort_sorted. eapply perm_trans; [apply Permutation_sym, pair_sort_perm|]. eapply perm_trans; [|apply pair_sort_perm].
    eapply perm_trans; [apply Permutation_app_comm|]. cbn [app]. constructor. apply Permutation_sym, pair_sort_perm.
  - intros p. cbn [iv_new iv_pairs]. split; apply Permutation_in; [apply Permutation_sym|]; apply pair_sort_perm.
Qed.
Lemma all_pairs_swap : forall f g, (forall p q, f p q = g q p) -> forall a b, all_pairs f a b = all_pairs g b a.
Proof. intros f g H. induction a as [|p a IH]; intros [|q b]; cbn; auto. rewrite H, IH. auto. Qed.
Theorem C50_order : forall a b c,
  iv_lt a a = false /\ (iv_lt a b = true -> iv_lt b a = false) /\ (iv_lt a b = true -> iv_lt b c = true -> iv_lt a c = true) /\
  iv_gt a b = iv_lt b a /\ iv_ge a b = iv_le b a /\ iv_le a a = true /\ (iv_lt a b = true -> iv_le a b = true) /\ (iv_le a b = true -> iv_le b c = true -> iv_le a c = true) /\
  (iv_le a b = true -> iv_le b a = true -> iv_eqb a b = true).
Proof.
  set (L := fun p q : nat * nat => if fst q <? fst p then false else if fst p =? fst q then negb (snd q <=? snd p) else true).
  set (E := fun p q : nat * nat => if fst q <? fst p then false else if fst p =? fst q then negb (snd q <? snd p) else true).
  assert (Li : forall p, L p p = false) by (intros p; unfold L; rewrite Nat.ltb_irrefl, Nat.eqb_refl, Nat.leb_refl; auto).
  assert (Ei : forall p, E p p = true) by (intros p; unfold E; rewrite !Nat.ltb_irrefl, Nat.eqb_refl; auto).
  assert (LT : forall p q, L p q = true <-> fst p < fst q \/ fst p = fst q /\ snd p < snd q).
  { intros p q. unfold L. destruct (Nat.ltb_spec (fst q) (fst p)), (Nat.eqb_spec (fst p) (fst q)), (Nat.leb_spec (snd q) (snd p)); cbn; split; intros; auto; try discriminate; lia. }
  assert (ET : forall p q, E p q = true <-> fst p < fst q \/ fst p = fst q /\ snd p <= snd q).
  { intros p q. unfold E. destruct (Nat.ltb_spec (fst q) (fst p)), (Nat.eqb_spec (fst p) (fst q)), (Nat.ltb_spec (snd q) (snd p)); cbn; split; intros; auto; try discriminate; lia. }
  assert (LL : forall a b, iv_lt a b = if lop_code (iv_op a) <? lop_code (iv_op b) then true else if lop_code (iv_op b) <? lop_code (iv_op a) then false else if length (iv_pairs b) <? length (iv_pairs a) then false
     else if length (iv_pairs a) =? length (iv_pairs b) then if length (iv_pairs a) =? 0 then false else all_pairs L (iv_pairs a) (iv_pairs b) else true) by (intros; reflexivity).
  assert (EE : forall a b, iv_le a b = if lop_code (iv_op a) <? lop_code (iv_op b) then true else if lop_code (iv_op b) <? lop_code (iv_op a) then false else if length (iv_pairs b) <? length (iv_pairs a) then false
     else if length (iv_pairs a) =? length (iv_pairs b) then all_pairs E (iv_pairs a) (iv_pairs b) else true) by (intros; reflexivity).
  assert (APT : forall R, (forall p q r, R p q = true -> R q r = true -> R p r = true) -> forall a b c, length a = length b -> length b = length c -> all_pairs R a b = true -> all_pairs R b c = true -> all_pairs R a c = true).
  { intros R HR. induction a as [|p a IH]; intros [|q b] [|r c] H1 H2; cbn in *; auto; try lia. destruct (R p q) eqn:E1; [|discriminate]. destruct (R q r) eqn:E2; [|discriminate]. rewrite (HR p q r) by auto. intros. apply (IH b c); auto. }
  assert (LTR : forall p q r, L p q = true -> L q r = true -> L p r = true) by (intros p q r; rewrite !LT; lia).
  assert (ETR : forall p q r, E p q = true -> E q r = true -> E p r = true) by (intros p q r; rewrite !ET; lia).
  assert (Irr : forall a, iv_lt a a = false). { intros a. rewrite LL, !Nat.ltb_irrefl, Nat.eqb_refl. destruct (iv_pairs a) as [|p l] eqn:El; auto. cbn [length Nat.eqb all_pairs]. rewrite Li. auto. }
  assert (Tr : forall a b c, iv_lt a b = true -> iv_lt b c = true -> iv_lt a c = true).
  { intros a b c. rewrite !LL. set (x := lop_code (iv_op a)). set (y := lop_code (iv_op b)). set (z := lop_code (iv_op c)).
    destruct (Nat.ltb_spec x y), (Nat.ltb_spec y z), (Nat.ltb_spec x z), (Nat.ltb_spec y x), (Nat.ltb_spec z y), (Nat.ltb_spec z x); auto; try lia; try discriminate.
    destruct (Nat.ltb_spec (length (iv_pairs b)) (length (iv_pairs a))), (Nat.ltb_spec (length (iv_pairs c)) (length (iv_pairs b))), (Nat.ltb_spec (length (iv_pairs c)) (length (iv_pairs a))); auto; try lia; try discriminate.
    destruct (Nat.eqb_spec (length (iv_pairs a)) (length (iv_pairs b))), (Nat.eqb_spec (length (iv_pairs b)) (length (iv_pairs c))), (Nat.eqb_spec (length (iv_pairs a)) (length (iv_pairs c))); auto; try lia.
    destruct (Nat.eqb_spec (length (iv_pairs a)) 0), (Nat.eqb_spec (length (iv_pairs b)) 0); auto; try discriminate. eapply APT; eauto. }
  assert (TrE : forall a b c, iv_le a b = true -> iv_le b c = true -> iv_le a c = true).
  { intros a b c. rewrite !EE. set (x := lop_code (iv_op a)). set (y := lop_code (iv_op b)). set (z := lop_code (iv_op c)).
    destruct (Nat.ltb_spec x y), (Nat.ltb_spec y z), (Nat.ltb_spec x z), (Nat.ltb_spec y x), (Nat.ltb_spec z y), (Nat.ltb_spec z x); auto; try lia; try discriminate.
    destruct (Nat.ltb_spec (length (iv_pairs b)) (length (iv_pairs a))), (Nat.ltb_spec (length (iv_pairs c)) (length (iv_pairs b))), (Nat.ltb_spec (length (iv_pairs c)) (length (iv_pairs a))); auto; try lia; try discriminate.
    destruct (Nat.eqb_spec (length (iv_pairs a)) (length (iv_pairs b))), (Nat.eqb_spec (length (iv_pairs b)) (length (iv_pairs c))), (Nat.eqb_spec (length (iv_pairs a)) (length (iv_pairs c))); auto; try lia. eapply APT; eauto. }
  assert (LE : forall a b, all_pairs L a b = true -> all_pairs E a b = true).
  { induction a as [|p a IH]; intros [|q b]; cbn; auto. destruct (L p q) eqn:E1; [|discriminate]. assert (E2 : E p q = true) by (apply ET; apply LT in E1; lia). rewrite E2. auto. }
  intros a b c. split; auto. split. { intros H. destruct (iv_lt b a) eqn:X; auto. pose proof (Irr a) as Y. rewrite (Tr a b a) in Y by auto. discriminate. } split; [apply Tr|].
  split. { unfold iv_gt, iv_lt. set (x := lop_code (iv_op a)). set (y := lop_code (iv_op b)). destruct (Nat.ltb_spec x y), (Nat.ltb_spec y x); auto; try lia. destruct (Nat.ltb_spec (length (iv_pairs a)) (length (iv_pairs b))); auto. rewrite (Nat.eqb_sym (length (iv_pairs b))).
    destruct (Nat.eqb_spec (length (iv_pairs a)) (length (iv_pairs b))) as [LE0|]; auto. rewrite LE0. destruct (length (iv_pairs b) =? 0); auto. apply all_pairs_swap. intros p q. rewrite (Nat.eqb_sym (fst p)). auto. }
  split. { unfold iv_ge, iv_le. set (x := lop_code (iv_op a)). set (y := lop_code (iv_op b)). destruct (Nat.ltb_spec x y), (Nat.ltb_spec y x); auto; try lia. destruct (Nat.ltb_spec (length (iv_pairs a)) (length (iv_pairs b))); auto. rewrite (Nat.eqb_sym (length (iv_pairs b))).
    destruct (Nat.eqb_spec (length (iv_pairs a)) (length (iv_pairs b))) as [LE0|]; auto. apply all_pairs_swap. intros p q. rewrite (Nat.eqb_sym (fst p)). auto. }
  split. { rewrite EE, !Nat.ltb_irrefl, Nat.eqb_refl. induction (iv_pairs a) as [|p l IH]; cbn; auto. rewrite Ei. auto. }
  split. { rewrite LL, EE. destruct (_ <? _); auto. destruct (_ <? _); auto. destruct (_ <? _); auto. destruct (_ =? _); auto. destruct (_ =? 0); [discriminate|]. apply LE. }
  split; [apply TrE|]. rewrite !EE. rewrite iv_eqb_eq. set (x := lop_code (iv_op a)). set (y := lop_code (iv_op b)). destruct (Nat.ltb_spec x y), (Nat.ltb_spec y x); try lia; try discriminate.
  destruct (Nat.ltb_spec (length (iv_pairs b)) (length (iv_pairs a))), (Nat.ltb_spec (length (iv_pairs a)) (length (iv_pairs b))); try lia; try discriminate.
  destruct (Nat.eqb_spec (length (iv_pairs a)) (length (iv_pairs b))) as [EL|]; [|lia]. rewrite EL, Nat.eqb_refl. intros A1 A2. assert (XY : iv_op a = iv_op b) by (apply lop_code_inj; unfold x, y in *; lia).
  destruct a as [oa pa], b as [ob pb]. cbn [iv_op iv_pairs] in *. subst ob. f_equal. clear - A1 A2 ET EL. revert pb EL A1 A2. induction pa as [|p pa IH]; intros [|q pb] EL A1 A2; cbn in *; auto; try lia.
  destruct (E p q) eqn:E1; [|discriminate]. destruct (E q p) eqn:E2; [|discriminate]. apply ET in E1. apply ET in E2. f_equal; [|apply IH; auto]. destruct p as [p1 p2], q as [q1 q2]. cbn [fst snd] in *. f_equal; lia.
Qed.
(** [<=] is not [<] or [==]; the negations of [<] do not order either. *)
Theorem C50_le_refuted : ~ (forall a b, iv_made a -> iv_made b -> iv_le a b = true -> iv_lt a b = true \/ iv_eqb a b = true) /\ ~ (forall a b, iv_made a -> iv_made b -> iv_lt a b = false -> iv_lt b a = false -> iv_eqb a b = true).
Proof.
  split; intros H.
  - destruct (H iv00 iv01) as [X|X]; try (vm_compute in X; discriminate); try (eexists; reflexivity); vm_compute; reflexivity.
  - assert (X : iv_eqb iv00 iv01 = true) by (apply H; try (eexists; reflexivity); vm_compute; reflexivity). vm_compute in X. discriminate.
Qed.
Print Assumptions C50_linear. Print Assumptions C50_one_pair_sortable. Print Assumptions C50_sort_refuted. Print Assumptions C50_linear_refuted. Print Assumptions C50_equal. Print Assumptions C50_add. Print Assumptions C50_order. Print Assumptions C50_le_refuted.

(** ** Label order *)
Theorem C50_label_order : forall n1 n2 order valid invalid, n1 <= length order -> n2 <= length order ->
  exists f, lof_new n1 n2 order valid invalid = Ret f /\ lof_new_it n1 n2 order valid invalid = lof_new n1 n2 (firstn (Nat.max n1 n2) order) valid invalid /\
    constraint_function lof_cf f [n1; n2] valid invalid 0%Qc /\
    (forall a b, a < n1 -> b < n2 -> ft_call lof_ft f [a; b] = Ret (if Qclt_le_dec (nth b order 0%Qc) (nth a order 0%Qc) then invalid else valid)).
Proof.
  intros n1 n2 order valid invalid H1 H2. destruct (order_ok n1 n2 order valid invalid H1 H2) as (f & E & C & V). exists f. split; auto. split; auto. unfold lof_new_it.
  assert (EM : mapM (rd order) (seq 0 (Nat.max n1 n2)) = Ret (firstn (Nat.max n1 n2) order)).
  { pose proof (mapM_rd_front _ (firstn (Nat.max n1 n2) order) (skipn (Nat.max n1 n2) order)) as M. rewrite firstn_skipn, firstn_length_le in M by lia. auto. }
  rewrite EM. auto.
Qed.
(** ** At most so many labels *)
Theorem C50_num_labels : forall sh maxUsed valid invalid, sh <> [] ->
  exists f, nlf_new sh maxUsed valid invalid = Ret f /\ constraint_function nlf_cf f sh valid invalid 0%Qc /\
    (forall x, in_shape sh x -> ft_call nlf_ft f x = Ret (if labels_used x <=? maxUsed then valid else invalid)).
Proof. intros sh maxUsed valid invalid NE. apply (labels_ok (vs_list sh) sh); auto. apply vs_list_ok. Qed.
Theorem C50_num_labels_uniform : forall n k maxUsed valid invalid, small n -> small k -> 0 < n ->
  exists f, nlf_new_uniform n k maxUsed valid invalid = Ret f /\ constraint_function nlf_cf f (repeat k n) valid invalid 0%Qc /\
    (forall x, in_shape (repeat k n) x -> ft_call nlf_ft f x = Ret (if labels_used x <=? maxUsed then valid else invalid)).
Proof.
  intros n k maxUsed valid invalid Hn Hk NZ. destruct (vs_uniform_ok n k Hn Hk) as (s & E & V & _). unfold nlf_new_uniform. rewrite E. cbn [bind]. apply (labels_ok s); auto. destruct n; [lia|discriminate].
Qed.
(** Without variables the indicator variables of the labels are all the same. *)
Theorem C50_num_labels_refuted : ~ (forall n k maxUsed valid invalid, small n -> small k -> exists f, nlf_new_uniform n k maxUsed valid invalid = Ret f /\ NoDup (cf_indicators nlf_cf f)).
Proof.
  intros H. destruct (H 0 2 1 0%Qc 1%Qc) as (f & E & ND); try reflexivity. vm_compute in E. injection E as <-. cbn in ND. inversion ND as [|? ? N _]; subst. apply N. cbn. auto.
Qed.
(** ** The relaxed challenge at a labeling is the challenge, and reports are unique *)
Lemma reports_unique : forall cs val tol r1 r2, reports cs val tol r1 -> reports cs val tol r2 -> r1 = r2.
Proof.
  intros cs val tol r1 r2 [S1 H1] [S2 H2]. assert (HE : forall p, In p r1 <-> In p r2) by (intros [i w]; rewrite H1, H2; tauto). clear H1 H2. revert r2 S2 HE. induction r1 as [|p r1 IH]; intros [|q r2] S2 HE; auto.
  - exfalso. apply (HE q). cbn. auto.
  - exfalso. apply (HE p). cbn. auto.
  - cbn [map] in *. inversion S1 as [|? ? S1' F1]; subst. inversion S2 as [|? ? S2' F2]; subst. rewrite Forall_forall in *. assert (E : p = q).
    { destruct (proj1 (HE p) (or_introl eq_refl)) as [E|I1]; auto. destruct (proj2 (HE q) (or_introl eq_refl)) as [E|I2]; auto. pose proof (F2 _ (in_map fst _ _ I1)). pose proof (F1 _ (in_map fst _ _ I2)). lia. }
    subst q. f_equal. apply IH; auto. intros r. specialize (HE r). cbn in HE. split; intros I.
    + destruct (proj1 HE (or_intror I)) as [E|]; auto. subst r. pose proof (F1 _ (in_map fst _ _ I)). lia.
    + destruct (proj2 HE (or_intror I)) as [E|]; auto. subst r. pose proof (F2 _ (in_map fst _ _ I)). lia.
Qed.
Theorem C50_relaxed : forall F (CF : cftype F) f sh valid invalid tol0 x tol, constraint_function CF f sh valid invalid tol0 -> in_shape sh x -> (0 <= tol)%Qc ->
  cf_relaxed CF f (map (indicated x) (cf_indicators CF f)) tol = cf_challenge CF f x tol.
Proof.
  intros F CF f sh valid invalid tol0 x tol (_ & _ & HC & HR & _) HX HT. destruct (HC x tol HX HT) as (r & E & R). destruct (HR (indicated x) [] tol HT) as (r' & E' & R'). rewrite app_nil_r in E'. rewrite E, E'. f_equal. eapply reports_unique; eauto.
Qed.
(** The value is valid exactly if challenge at the tolerance of the function finds nothing. *)
Theorem C50_valid_iff_silent : forall F (CF : cftype F) f sh valid invalid tol0 x, constraint_function CF f sh valid invalid tol0 -> in_shape sh x -> (0 <= tol0)%Qc -> valid <> invalid ->
  (ft_call (cf_ft CF) f x = Ret valid <-> cf_challenge CF f x tol0 = Ret []).
Proof.
  intros F CF f sh valid invalid tol0 x (_ & HV & HC & _) HX HT NE. destruct (HC x tol0 HX HT) as (r & E & S & R). destruct (HV x HX) as (v & Ev & V1 & V2). rewrite E, Ev.
  assert (D : Forall (fun c => within c (indicated x) tol0) (cf_constraints CF f) <-> r = []).
  { split; intros H.
    - destruct r as [|[i w] r]; auto. exfalso. destruct (proj1 (R i w) (or_introl eq_refl)) as (c & Hc & N & _). apply N. rewrite Forall_forall in H. apply H. eapply nth_error_In; eauto.
    - subst. apply Forall_forall. intros c Hc. destruct (within_dec c (indicated x) tol0) as [W|W]; auto. exfalso. apply In_nth_error in Hc as (i & Hi). destruct (proj2 (R i (excess c (indicated x)))); eauto. }
  split; intros H.
  - injection H as H. f_equal. apply D. destruct (Forall_dec _ (fun c => within_dec c (indicated x) tol0) (cf_constraints CF f)) as [Y|Y]; auto. exfalso. apply NE. rewrite <- H. auto.
  - injection H as H. f_equal. apply V1, D. auto.
Qed.
(** ** min, max and minMax bound the values, but need not be among them *)
Lemma two_bounds : forall valid invalid v, v = valid \/ v = invalid -> (two_min valid invalid <= v <= two_max valid invalid)%Qc /\ two_minMax valid invalid = (two_min valid invalid, two_max valid invalid).
Proof.
  intros valid invalid v H. unfold two_min, two_max, two_minMax. destruct (Qc_lt valid invalid) eqn:E1; destruct (Qc_lt invalid valid) eqn:E2.
  - apply Qc_lt_true in E1, E2. exfalso. qc.
  - apply Qc_lt_true in E1. split; auto. destruct H as [->| ->]; split; qc.
  - apply Qc_lt_true in E2. split; auto. destruct H as [->| ->]; split; qc.
  - apply Qc_lt_false in E1, E2. assert (valid = invalid) by (apply Qcle_antisym; auto). subst. split; auto. destruct H as [->| ->]; split; qc.
Qed.
Theorem C50_min_max : forall x v,
  (forall iv_sort TOL f, ft_call (lcf_ft iv_sort TOL) f x = Ret v -> let CF := lcf_cf iv_sort TOL in (cf_min CF f <= v <= cf_max CF f)%Qc /\ cf_minMax CF f = (cf_min CF f, cf_max CF f)) /\
  (forall f, ft_call lof_ft f x = Ret v -> (cf_min lof_cf f <= v <= cf_max lof_cf f)%Qc /\ cf_minMax lof_cf f = (cf_min lof_cf f, cf_max lof_cf f)) /\
  (forall f, ft_call nlf_ft f x = Ret v -> (cf_min nlf_cf f <= v <= cf_max nlf_cf f)%Qc /\ cf_minMax nlf_cf f = (cf_min nlf_cf f, cf_max nlf_cf f)).
Proof.
  intros x v. split; [|split].
  - intros iv_sort TOL f E CF. apply two_bounds. cbn [ft_call lcf_ft] in E. unfold lcf_call in E. destruct (lcf_check TOL (lf_constraints f) x) as [[|]| | |]; try discriminate; cbn [bind] in E; injection E as <-; auto.
  - intros f E. apply two_bounds. cbn [ft_call lof_ft] in E. unfold lof_call in E. destruct (rd x 0) as [a| | |]; try discriminate. cbn [bind] in E. destruct (rd x 1) as [b| | |]; try discriminate. cbn [bind] in E. destruct (rd (lo_order f) a) as [p| | |]; try discriminate. cbn [bind] in E. destruct (rd (lo_order f) b) as [q| | |]; try discriminate. cbn [bind] in E. injection E as <-. destruct (Qc_lt q p); auto.
  - intros f E. apply two_bounds. cbn [ft_call nlf_ft] in E. unfold nlf_call in E. destruct (nlf_loop _ _ _ _ _ _) as [[|]| | |]; try discriminate; cbn [bind] in E; injection E as <-; auto.
Qed.
Theorem C50_min_refuted : ~ (forall n1 n2 order valid invalid f, 0 < n1 <= length order -> 0 < n2 <= length order -> lof_new n1 n2 order valid invalid = Ret f -> exists x, in_shape [n1; n2] x /\ ft_call lof_ft f x = Ret (cf_min lof_cf f)).
Proof.
  intros H. destruct (H 1 1 [0%Qc] 1%Qc 0%Qc (mkLof 1 1 [0%Qc] 1%Qc 0%Qc (mkLC [iv_new1 0 0 And; iv_new1 1 0 And] [0%Qc; (- 0)%Qc] 0%Qc LessEqual) [iv_new1 0 0 And; iv_new1 1 0 And])) as (x & HX & E); cbn [length]; try lia. { reflexivity. }
  inversion HX as [|a ? x' ? Ha H']; subst. inversion H' as [|b ? x'' ? Hb H'']; subst. inversion H''; subst. assert (a = 0) by lia. assert (b = 0) by lia. subst. vm_compute in E. discriminate.
Qed.
Print Assumptions C50_label_order. Print Assumptions C50_num_labels. Print Assumptions C50_num_labels_uniform. Print Assumptions C50_num_labels_refuted. Print Assumptions C50_relaxed. Print Assumptions C50_valid_iff_silent. Print Assumptions C50_min_max. Print Assumptions C50_min_refuted.

(** ** Writing and reading *)
Lemma has_shape_unique : forall T F (ft : ftype T F) f a b, has_shape ft f a -> has_shape ft f b -> a = b.
Proof.
  intros T F ft f a b [A1 A2] [B1 B2]. assert (L : length a = length b) by congruence. apply (nth_ext _ _ 0 0); auto. intros i Hi. assert (E : Ret (nth i a 0) = Ret (nth i b 0)) by (rewrite <- A2, <- B2 by lia; auto). congruence.
Qed.
Definition linear_made (iv_sort : list iv -> outcome (list iv)) (f : lcf) : Prop :=
  exists sh cs valid invalid, Forall (lc_legal sh) cs /\ lcf_new iv_sort sh cs valid invalid = Ret f.
Lemma lcf_new_fields : forall iv_sort sh cs valid invalid f, lcf_new iv_sort sh cs valid invalid = Ret f -> lf_shape f = sh /\ lf_constraints f = cs /\ lf_valid f = valid /\ lf_invalid f = invalid.
Proof. intros iv_sort sh cs valid invalid f E. unfold lcf_new in E. destruct (lcf_fill iv_sort cs); try discriminate. injection E as <-. auto. Qed.
(** The very same function object is read back. *)
Theorem C50_linear_same : forall iv_sort f dst ix' vs', linear_made iv_sort f ->
  exists ix vs, lcf_serialize f = Ret (ix, vs) /\ lcf_deserialize iv_sort (ix ++ ix') (vs ++ vs') dst = Ret f.
Proof.
  intros iv_sort f dst ix' vs' (sh & cs & valid & invalid & HL & E). destruct (lcf_new_fields _ _ _ _ _ _ E) as (E1 & E2 & E3 & E4). eexists _, _. split; [reflexivity|].
  rewrite (lcf_read iv_sort sh cs valid invalid f _ _ ix' vs' dst HL eq_refl); auto.
Qed.
Theorem C50_linear_round : forall iv_sort TOL, (0 <= TOL)%Qc -> round_trips (lcf_ft iv_sort TOL) (linear_made iv_sort) any.
Proof.
  intros iv_sort TOL HT f dst sh0 HM _ HS. pose proof HM as (sh & cs & valid & invalid & HL & E). destruct (lcf_new_fields _ _ _ _ _ _ E) as (E1 & E2 & E3 & E4). cbn [ft_serialize ft_deserialize lcf_ft ft_indexSequenceSize ft_valueSequenceSize ft_size ft_call].
  apply (has_shape_list _ _ _ _ (lf_shape f)) in HS; auto. rewrite E1 in HS. subst sh0. destruct (lcf_serialize f) as [[ix vs]| | |] eqn:EP; try discriminate EP. exists ix, vs. split; auto. destruct (lcf_sizes _ _ _ EP) as [Z1 Z2]. split; auto. split; auto.
  intros ix' vs'. exists f. rewrite (lcf_read iv_sort sh cs valid invalid f _ _ ix' vs' dst HL EP) by auto. split; auto. split. { apply (has_shape_list _ _ _ _ (lf_shape f)); auto. } repeat split; auto.
  intros c HC. unfold lcf_call. rewrite E2. destruct (lcf_check_ok TOL cs c HT) as (b & Eb & _). { eapply Forall_impl; [|apply HL]. cbn. intros d Hd. eapply legal_reads; eauto. } rewrite Eb. cbn [bind]. eauto.
Qed.
(** With more coefficients than indicator variables in a constraint, which the constructor of LinearConstraint accepts without
    debug checks, the next constraint reads the wrong coefficients. *)
Definition v0 : iv := iv_new1 0 0 And.
Definition uneven : list lc := [mkLC [v0] [1%Qc; Qc_of 5] 1%Qc LessEqual; mkLC [v0] [Qc_of 2] 1%Qc LessEqual].
Theorem C50_linear_round_refuted : exists f ix vs f', lcf_new (checked_sort iv_lt) [2] uneven 0%Qc 1%Qc = Ret f /\ lcf_serialize f = Ret (ix, vs) /\
  lcf_deserialize (checked_sort iv_lt) ix vs f = Ret f' /\ map lc_coeffs (lf_constraints f') = [[1%Qc]; [Qc_of 5]] /\ map lc_coeffs (lf_constraints f) = [[1%Qc; Qc_of 5]; [Qc_of 2]].
Proof.
  exists (mkLcf [2] 2%Z uneven 0%Qc 1%Qc [v0] [[0]; [0]]), [1; 2; 2; 0; 0; 1; 1; 0; 1; 0; 1; 0; 0; 0; 0], [1%Qc; 1%Qc; 0%Qc; 1%Qc; 1%Qc; Qc_of 5; Qc_of 2], (mkLcf [2] 2%Z [mkLC [v0] [1%Qc] 1%Qc LessEqual; mkLC [v0] [Qc_of 5] 1%Qc LessEqual] 0%Qc 1%Qc [v0] [[0]; [0]]).
  repeat split; vm_compute; reflexivity.
Qed.
Definition order_made (f : lof) : Prop := exists n1 n2 order valid invalid, n1 <= length order /\ n2 <= length order /\ lof_new n1 n2 order valid invalid = Ret f.
Theorem C50_label_order_round : round_trips lof_ft order_made any.
Proof.
  intros f dst sh (n1 & n2 & order & valid & invalid & H1 & H2 & E) _ HS. destruct (order_ok n1 n2 order valid invalid H1 H2) as (f0 & E0 & C & V). assert (f0 = f) by congruence. subst f0.
  assert (EF : lo_n1 f = n1 /\ lo_n2 f = n2 /\ lo_order f = order /\ lo_valid f = valid /\ lo_invalid f = invalid) by (rewrite lof_new_ok in E by auto; injection E as <-; auto). destruct EF as (F1 & F2 & F3 & F4 & F5).
  pose proof C as (HS2 & HV & _). cbn [lof_cf cf_ft] in HS2, HV. pose proof (has_shape_unique _ _ _ _ _ _ HS HS2). subst sh. cbn [lof_ft ft_serialize ft_deserialize ft_indexSequenceSize ft_valueSequenceSize ft_size ft_call].
  destruct (lof_serialize f) as [[ix vs]| | |] eqn:ES; try (unfold lof_serialize in ES; rewrite mapM_rd_all in ES; discriminate ES). exists ix, vs. split; auto.
  destruct (lof_read n1 n2 order valid invalid f ix vs [] [] dst F1 F2 F3 F4 F5 ES) as (_ & L1 & L2). split; auto. split; [rewrite F3; auto|]. intros ix' vs'. exists f. destruct (lof_read n1 n2 order valid invalid f ix vs ix' vs' dst F1 F2 F3 F4 F5 ES) as (R & _). rewrite R. split; auto. split; auto. repeat split; auto.
  intros c Hc. destruct (HV c Hc) as (v & Ev & _). cbn [lof_ft ft_call] in Ev. eauto.
Qed.
(** What size() fits: the constructor from a shape multiplies in int. *)
Definition fits (sh : list nat) : Prop := positive sh /\ (Z.of_nat (size_of sh) < 2 ^ 31)%Z /\ small (length sh).
Definition labels_made (f : nlf) : Prop :=
  (exists sh m valid invalid, fits sh /\ nlf_new sh m valid invalid = Ret f) \/ (exists n k m valid invalid, small n /\ small k /\ nlf_new_uniform n k m valid invalid = Ret f).
Lemma back_read : forall s sh w t, vs_origin s sh -> vs_write s = Ret w -> nexts (if negb ((if vs_same s then 1 else 0) =? 0) then 1 else vs_num s) (w ++ t) = Ret (w, t).
Proof. intros s sh w t HO E. destruct (vs_round s sh HO) as (w' & E' & L & _). assert (w' = w) by congruence. subst w'. destruct (vs_same s); cbn [Nat.eqb negb]; rewrite <- L; apply nexts_ok. Qed.
Theorem C50_num_labels_round : round_trips nlf_ft labels_made any.
Proof.
  intros f dst sh0 HM _ HS.
  assert (G : exists s sh m valid invalid, vs_origin s sh /\ nlf_build s m valid invalid = Ret f).
  { destruct HM as [(sh & m & va & iv & (P & Z & N) & E)|(n & k & m & va & iv & Hn & Hk & E)].
    - exists (vs_list sh), sh, m, va, iv. split; auto. left. auto.
    - unfold nlf_new_uniform in E. destruct (vs_uniform_ok n k Hn Hk) as (s & Es & V & _). rewrite Es in E. cbn [bind] in E. exists s, (repeat k n), m, va, iv. split; auto. right. exists n, k. auto. }
  destruct G as (s & sh & m & va & inv & HO & E). pose proof (origin_ok _ _ HO) as OK. rewrite (nlf_build_ok s sh) in E by auto. injection E as <-. set (f := mkNlf _ _ _ _ _ _) in *.
  assert (HS2 : has_shape nlf_ft f sh) by (eapply vs_has_shape; eauto). pose proof (has_shape_unique _ _ _ _ _ _ HS HS2). subst sh0. destruct (vs_round s sh HO) as (w & EW & LW & LS & WS & s' & EB & OK' & N' & SA' & SZ' & SS').
  cbn [nlf_ft ft_serialize ft_deserialize ft_indexSequenceSize ft_valueSequenceSize ft_size ft_call]. unfold nlf_serialize. change (nl_sh f) with s. change (nl_maxUsed f) with m. rewrite EW. cbn [bind]. eexists _, _. split; [reflexivity|].
  split. { cbn [length]. rewrite app_length, LW. cbn [length]. destruct (vs_same s); [lia|]. rewrite LS by auto. lia. } split; auto.
  intros ix' vs'. exists (mkNlf s' m va inv (map (label_iv sh) (seq 0 (vs_max s'))) (nl_lc sh (vs_max s') m)). split.
  { unfold nlf_deserialize. cbn [app next bind]. rewrite <- app_assoc. rewrite (back_read s sh) by auto. cbn [bind app next]. change (nl_valid f) with va. change (nl_invalid f) with inv. rewrite <- (nlf_build_ok s' sh) by auto. unfold vs_back in EB.
    destruct (vs_same s) eqn:ES; cbn [Nat.eqb negb].
    - destruct (rd w 0) as [k| | |]; try discriminate. cbn [bind] in *. unfold nlf_new_uniform. rewrite EB. auto.
    - injection EB as <-. auto. }
  split. { eapply vs_has_shape; eauto. } cbn [nl_sh]. rewrite SZ', SA'. split; auto. split. { destruct (vs_same s) eqn:ES; auto. rewrite SS' by auto. auto. } split; auto.
  intros c Hc. unfold f. rewrite !(nlf_call_ok _ sh) by auto. eauto.
Qed.
(** The size of a function of 32 variables with two labels is not the same after a round trip. *)
Theorem C50_num_labels_round_refuted : exists f f' ix vs, nlf_new (repeat 2 32) 1 0%Qc 1%Qc = Ret f /\ nlf_serialize f = Ret (ix, vs) /\ nlf_deserialize ix vs f = Ret f' /\
  ft_size nlf_ft f = 0%Z /\ ft_size nlf_ft f' = (2 ^ 32)%Z.
Proof.
  assert (V : vs_ok (vs_list (repeat 2 32)) (repeat 2 32)) by apply vs_list_ok. destruct (vs_uniform_ok 32 2 ltac:(reflexivity) ltac:(reflexivity)) as (s & Es & Vs & _ & _ & Zs).
  eexists _, _, [1; 32; 2; 1], [0%Qc; 1%Qc]. split. { unfold nlf_new. apply (nlf_build_ok _ _ _ _ _ V). } split. { vm_compute. reflexivity. }
  split. { unfold nlf_deserialize. cbn [next bind nexts reads seq app Nat.eqb negb]. change (rd [2] 0) with (Ret 2). cbn [bind]. unfold nlf_new_uniform. rewrite Es. cbn [bind]. apply (nlf_build_ok _ _ _ _ _ Vs). }
  split. { vm_compute. reflexivity. } cbn [ft_size nlf_ft nl_sh]. rewrite Zs. vm_compute. reflexivity.
Qed.
Print Assumptions C50_linear_same. Print Assumptions C50_linear_round. Print Assumptions C50_linear_round_refuted. Print Assumptions C50_label_order_round. Print Assumptions C50_num_labels_round. Print Assumptions C50_num_labels_round_refuted.

(** ** A concrete case: two linear constraints over two variables, of three and two labels *)
Lemma made_new1 : forall a b o, iv_made (iv_new1 a b o). Proof. intros a b o. exists [(a, b)]. reflexivity. Qed.
Definition case_cs : list lc := [lc_new [iv_new1 0 0 And; iv_new1 1 1 Not] [1%Qc; 1%Qc] 1%Qc LessEqual; lc_new [iv_new1 0 2 And; iv_new1 0 0 And] [1%Qc; 1%Qc] 1%Qc Equal].
Definition tenth : Qc := Q2Qc (1 # 10).
Example C50_case : Forall (lc_legal [3; 2]) case_cs /\ strict_weak iv_lt (all_ivs case_cs) /\ sorts iv_lt (checked_sort iv_lt) /\ (0 <= tenth)%Qc /\
  (f <- lcf_new (checked_sort iv_lt) [3; 2] case_cs 0%Qc (Qc_of 7) ;; a <- lcf_call tenth f [0; 1] ;; b <- lcf_call tenth f [1; 0] ;; r <- lcf_challenge f [1; 0] tenth ;; Ret (a, b, r)) = Ret (0%Qc, (Qc_of 7), [(1, 1%Qc)]) /\
  linear_made (checked_sort iv_lt) (mkLcf [3; 2] 6%Z case_cs 0%Qc (Qc_of 7) [iv_new1 0 0 And; iv_new1 0 2 And; iv_new1 1 1 Not] [[0; 2]; [1; 0]]).
Proof.
  assert (HL : Forall (lc_legal [3; 2]) case_cs) by (repeat (constructor; cbn; auto using made_new1; try lia)). split; auto. split. { apply C50_one_pair_sortable. repeat constructor; eexists; reflexivity. } split; [apply checked_sorts|]. split; [vm_compute; discriminate|].
  split; [vm_compute; reflexivity|]. exists [3; 2], case_cs, 0%Qc, (Qc_of 7). split; auto.
Qed.
Example C50_label_case : (f <- nlf_new [3; 2; 3] 2 0%Qc 1%Qc ;; a <- nlf_call f [2; 1; 2] ;; b <- nlf_call f [0; 1; 2] ;; r <- nlf_challenge f [0; 1; 2] 0%Qc ;; Ret (a, b, r)) = Ret (0%Qc, 1%Qc, [(0, 1%Qc)]) /\
  (f <- lof_new 2 3 [Qc_of 1; Qc_of 2; Qc_of 3] 0%Qc 1%Qc ;; a <- lof_call f [0; 2] ;; b <- lof_call f [1; 0] ;; r <- lof_challenge f [1; 0] 0%Qc ;; Ret (a, b, r)) = Ret (0%Qc, 1%Qc, [(0, 1%Qc)]) /\ fits [3; 2; 3].
Proof. split; [vm_compute; reflexivity|]. split; [vm_compute; reflexivity|]. repeat split; repeat constructor. Qed.
