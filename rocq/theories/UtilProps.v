(** C29, C30, C31: integer power, accumulation of the best value, sorted sequences. *)
From Coq Require Import NArith Sorted Permutation.
From Verif Require Import Base Values OperationsModel OperationsProps UtilModel.

(** * C29 *)
Lemma mul64_mod_l : forall a b, mul64 (a mod 2 ^ 64) b = mul64 a b.
Proof. intros. unfold mul64. rewrite N.mul_mod_idemp_l; auto. discriminate. Qed.

Lemma pow_mod_base : forall e b, ((b mod 2 ^ 64) ^ e mod 2 ^ 64 = b ^ e mod 2 ^ 64)%N.
Proof.
  induction e using N.peano_ind; intros; [reflexivity|]. rewrite !N.pow_succ_r'.
  rewrite <- N.mul_mod_idemp_r by discriminate. rewrite IHe.
  rewrite N.mul_mod_idemp_r by discriminate. rewrite N.mul_mod_idemp_l by discriminate. reflexivity.
Qed.

Lemma pow_loop_spec : forall fuel e b r, (e < 2 ^ N.of_nat fuel)%N ->
  exists x, pow_loop fuel e b r = Ret x /\ (x mod 2 ^ 64 = (r * b ^ e) mod 2 ^ 64)%N /\
    (r < 2 ^ 64 -> x < 2 ^ 64)%N.
Proof.
  induction fuel as [|fuel IH]; intros e b r He.
  - change (2 ^ N.of_nat 0)%N with 1%N in He. assert (e = 0)%N by lia. subst. exists r. cbn. rewrite N.mul_1_r. auto.
  - cbn [pow_loop]. destruct (N.eqb_spec e 0) as [->|Hne].
    + exists r. cbn. rewrite N.mul_1_r. auto.
    + rewrite Nat2N.inj_succ, N.pow_succ_r' in He.
      pose proof (N.div_mod e 2 ltac:(discriminate)) as DM.
      pose proof (N.mod_upper_bound e 2 ltac:(discriminate)) as MB.
      set (r' := if N.eqb (e mod 2) 1 then mul64 r b else r).
      destruct (IH (e / 2)%N (mul64 b b) r') as [x [E [X1 X2]]].
      { apply N.div_lt_upper_bound; lia. }
      exists x. split; auto. split.
      * rewrite X1. unfold mul64 at 1. rewrite <- N.mul_mod_idemp_r by discriminate.
        rewrite pow_mod_base. rewrite N.mul_mod_idemp_r by discriminate.
        replace ((b * b) ^ (e / 2))%N with (b ^ (2 * (e / 2)))%N.
        2:{ rewrite N.pow_mul_r. f_equal. rewrite N.pow_2_r. reflexivity. }
        assert (HE : (b ^ e = b ^ (2 * (e / 2)) * b ^ (e mod 2))%N) by (rewrite <- N.pow_add_r, <- DM; reflexivity).
        rewrite HE. subst r'. destruct (N.eqb_spec (e mod 2) 1) as [O|O].
        -- rewrite O, N.pow_1_r. unfold mul64. rewrite N.mul_mod_idemp_l by discriminate. f_equal. lia.
        -- assert (H0 : (e mod 2 = 0)%N) by (revert O MB; generalize (e mod 2)%N; clear; intros; lia). rewrite H0, N.pow_0_r, N.mul_1_r. reflexivity.
      * intros Hr. apply X2. subst r'. destruct (N.eqb (e mod 2) 1); auto. unfold mul64. apply N.mod_upper_bound. discriminate.
Qed.

(** For all 64-bit bases and exponents the result is the power modulo 2^64. *)
Theorem C29_unsignedIntegerPow : forall b e : N, (b < 2 ^ 64)%N -> (e < 2 ^ 64)%N ->
  unsignedIntegerPow b e = Ret (N.modulo (b ^ e) (2 ^ 64)).
Proof.
  intros b e Hb He. unfold unsignedIntegerPow.
  destruct (N.eqb_spec b 1) as [->|N1]; [rewrite N.pow_1_l; reflexivity|].
  destruct (N.eqb b 0 && N.ltb 0 e) eqn:Z0.
  - apply andb_prop in Z0. destruct Z0 as [A B]. apply N.eqb_eq in A. apply N.ltb_lt in B. subst.
    rewrite N.pow_0_l by lia. reflexivity.
  - destruct (pow_loop_spec 64 e b 1%N He) as [x [E [X1 X2]]]. rewrite E. f_equal.
    rewrite N.mul_1_l in X1. rewrite <- X1. symmetry. apply N.mod_small. apply X2. reflexivity.
Qed.
Print Assumptions C29_unsignedIntegerPow.
Example C29_example : unsignedIntegerPow 3 40 = Ret 12157665459056928801%N /\ unsignedIntegerPow 10 20 = Ret 7766279631452241920%N /\
  unsignedIntegerPow 0 0 = Ret 1%N.
Proof. vm_compute. auto. Qed.

(** * C30 *)
Section Acc.
Variables (T : Type) (ok : T -> Prop) (lt : T -> T -> bool).
Hypothesis lt_irr : forall a, lt a a = false.
Hypothesis lt_trans : forall a b c, lt a b = true -> lt b c = true -> lt a c = true.
Hypothesis lt_total : forall a b, ok a -> ok b -> lt a b = false -> lt b a = false -> a = b.

(** Running the accumulation from any (value, state) *)
Let op3 (a b : T) := if lt a b then a else b.
Let run := fold_left (fun a (p : T * list nat) => acc_feed T lt op3 a (fst p) (snd p)).

Lemma acc_run_spec : forall l v0 s0, ok v0 -> Forall (fun p => ok (fst p)) l ->
  let r := run l (mkAcc v0 s0) in
  ok (acc_value r) /\ lt v0 (acc_value r) = false /\
  (forall p, In p l -> lt (fst p) (acc_value r) = false) /\
  ((acc_value r = v0 /\ acc_state r = s0) \/
   (lt (acc_value r) v0 = true /\ exists l1 l2, l = l1 ++ (acc_value r, acc_state r) :: l2 /\
      forall p, In p l1 -> fst p <> acc_value r)).
Proof.
  induction l as [|[v s] l IH]; intros v0 s0 H0 HF; cbv zeta in *.
  - cbn. split; auto. split; auto. split; [intros p []|]. left. auto.
  - apply Forall_cons_iff in HF. destruct HF as [H1 H2]. cbn in H1.
    assert (Er : run ((v, s) :: l) (mkAcc v0 s0) = run l (if lt v v0 then mkAcc v s else mkAcc v0 s0)).
    { unfold run. cbn [fold_left fst snd]. unfold acc_feed at 2, op3 at 2. cbn [acc_value acc_state]. destruct (lt v v0); reflexivity. }
    rewrite Er. clear Er.
    destruct (lt v v0) eqn:E.
    + destruct (IH v s H1 H2) as [A [B [C D]]].
      set (r := run l (mkAcc v s)) in *. split; auto. split.
      { destruct (lt v0 (acc_value r)) eqn:F; auto. rewrite (lt_trans _ _ _ E F) in B. discriminate. }
      split. { intros p [<-|Hp]; auto. }
      right. destruct D as [[D1 D2]|[D1 [l1 [l2 [D2 D3]]]]].
      * rewrite D1, D2. split; auto. exists [], l. split; [reflexivity|intros p []].
      * split; [eapply lt_trans; eauto|]. exists ((v, s) :: l1), l2. split; [exact (f_equal (cons (v, s)) D2)|].
        intros p [<-|Hp]; auto. cbn. intros Hq. rewrite <- Hq, lt_irr in D1. discriminate.
    + destruct (IH v0 s0 H0 H2) as [A [B [C D]]].
      set (r := run l (mkAcc v0 s0)) in *. split; auto. split; auto. split.
      { intros p [<-|Hp]; auto. cbn. destruct (lt v (acc_value r)) eqn:F; auto.
        destruct D as [[D1 D2]|[D1 _]].
        - rewrite D1 in F. congruence.
        - rewrite (lt_trans _ _ _ F D1) in E. discriminate. }
      destruct D as [D|[D1 [l1 [l2 [D2 D3]]]]]; auto.
      right. split; auto. exists ((v, s) :: l1), l2. split; [exact (f_equal (cons (v, s)) D2)|].
      intros p [<-|Hp]; auto. cbn. intros Hq. rewrite <- Hq in D1. congruence.
Qed.
End Acc.

Lemma ext_total : forall a b, a <> NaN -> b <> NaN -> ext_lt a b = false -> ext_lt b a = false -> a = b.
Proof.
  intros a b Ha Hb H1 H2. destruct C10_less_is_order as [_ [_ T]]. destruct (T a b Ha Hb) as [L|[L|L]]; auto; unfold less in L; congruence.
Qed.

(** What the accumulation should report for the values and states fed: the best value, and the state
    of the first pair attaining it. *)
Definition best_first (better : ext -> ext -> bool) (l : list (ext * list nat)) (v : ext) (s : list nat) : Prop :=
  (forall p, In p l -> better (fst p) v = false) /\
  exists l1 l2, l = l1 ++ (v, s) :: l2 /\ forall p, In p l1 -> fst p <> v.

(** Proved if at least one value fed is not the neutral element (+infinity / -infinity); the value
    itself is right for every non-empty sequence. *)
Theorem C30_accumulation_partial : forall l, l <> [] -> (forall p, In p l -> fst p <> NaN) ->
  (let r := acc_run ext PInf ext_lt (Minimizer_op3 ext ext_lt) l in
   (forall p, In p l -> ext_lt (fst p) (acc_value r) = false) /\ (exists p, In p l /\ fst p = acc_value r) /\
   ((exists p, In p l /\ fst p <> PInf) -> best_first ext_lt l (acc_value r) (acc_state r))) /\
  (let gt a b := ext_lt b a in
   let r := acc_run ext NInf gt (Maximizer_op3 ext ext_lt) l in
   (forall p, In p l -> gt (fst p) (acc_value r) = false) /\ (exists p, In p l /\ fst p = acc_value r) /\
   ((exists p, In p l /\ fst p <> NInf) -> best_first gt l (acc_value r) (acc_state r))).
Proof.
  intros l Hne HN. destruct C10_less_is_order as [O1 [O2 _]].
  assert (HF : Forall (fun p : ext * list nat => fst p <> NaN) l) by (apply Forall_forall; auto).
  assert (G : forall lt neutral, (forall a, lt a a = false) -> (forall a b c, lt a b = true -> lt b c = true -> lt a c = true) ->
     (forall a b, a <> NaN -> b <> NaN -> lt a b = false -> lt b a = false -> a = b) -> neutral <> NaN ->
     (forall a, a <> NaN -> a <> neutral -> lt a neutral = true) ->
     let r := fold_left (fun a (p : ext * list nat) => acc_feed ext lt (fun a b => if lt a b then a else b) a (fst p) (snd p)) l (mkAcc neutral []) in
     (forall p, In p l -> lt (fst p) (acc_value r) = false) /\ (exists p, In p l /\ fst p = acc_value r) /\
     ((exists p, In p l /\ fst p <> neutral) -> best_first lt l (acc_value r) (acc_state r))).
  { intros lt neutral L1 L2 L3 L4 L5. cbv zeta.
    destruct (acc_run_spec ext (fun x => x <> NaN) lt L1 L2 L3 l neutral [] L4 HF) as [A [B [C D]]].
    set (r := fold_left _ l _) in *. split; auto. split.
    - destruct D as [[D1 D2]|[D1 [l1 [l2 [D2 D3]]]]].
      + destruct l as [|p l']; [contradiction|]. exists p. split; [left; auto|]. rewrite D1.
        destruct (lt (fst p) neutral) eqn:E.
        * pose proof (C p (or_introl eq_refl)) as F. rewrite D1 in F. congruence.
        * apply L3; auto; [apply HN; left; auto|].
          destruct (lt neutral (fst p)) eqn:E2; auto.
          destruct (L5 (fst p)); auto; [apply HN; left; auto|]. intros Heq. rewrite Heq, L1 in E2. discriminate.
      + exists (acc_value r, acc_state r). split; auto. revert D2. generalize (acc_value r, acc_state r). intros q D2. rewrite D2. apply in_app_iff. right. left. auto.
    - intros [p [Hp Hpn]]. split; auto. destruct D as [[D1 D2]|[D1 D2]]; auto.
      pose proof (C p Hp) as F. rewrite D1 in F. rewrite L5 in F; auto. discriminate. }
  split.
  - apply (G ext_lt PInf); try discriminate.
    + intros a. destruct (ext_lt a a) eqn:E; auto. exfalso. apply (O1 a). auto.
    + intros a b c. apply O2.
    + apply ext_total.
    + intros a. destruct a; cbn; congruence.
  - apply (G (fun a b => ext_lt b a) NInf); try discriminate.
    + intros a. destruct (ext_lt a a) eqn:E; auto. exfalso. apply (O1 a). auto.
    + intros a b c H1 H2. apply (O2 c b a); auto.
    + intros a b Ha Hb H1 H2. apply ext_total; auto.
    + intros a. destruct a; cbn; congruence.
Qed.
Print Assumptions C30_accumulation_partial.

(** If every value fed is infinite, the state stays empty: no state of the sequence is reported. *)
Theorem C30_accumulation_refuted :
  exists l, l <> [] /\ (forall p, In p l -> fst p <> NaN) /\
    ~ exists l1 l2, l = l1 ++ (PInf, acc_state (acc_run ext PInf ext_lt (Minimizer_op3 ext ext_lt) l)) :: l2.
Proof.
  exists [(PInf, [1; 2])]. split; [discriminate|]. split; [intros p [<-|[]]; discriminate|].
  intros [l1 [l2 H]]. cbn in H. destruct l1 as [|q [|? ?]]; discriminate H.
Qed.
(** neutral() returns the number of labels of the stored state instead of the neutral element. *)
Theorem C30_neutral_refuted :
  acc_neutral ext (fun n => Fin (Z.of_nat n)) (acc_init ext PInf) = Fin 0 /\
  acc_neutral ext (fun n => Fin (Z.of_nat n)) (acc_init ext PInf) <> PInf.
Proof. split; [reflexivity|discriminate]. Qed.
Print Assumptions C30_neutral_refuted.

(** MinMaxFunctor: after any non-empty sequence of values (without NaN), min() and max() are the
    least and the greatest value fed. *)
Theorem C30_minmax_functor : forall (l : list ext) T0, l <> [] -> (forall v, In v l -> v <> NaN) ->
  let m := mm_run ext ext_lt (mm_init ext T0) l in
  In (mm_min m) l /\ In (mm_max m) l /\ forall v, In v l -> ~ less v (mm_min m) /\ ~ less (mm_max m) v.
Proof.
  intros l T0 Hne HN. destruct C10_less_is_order as [O1 [O2 O3]].
  assert (G : forall l seen lo hi, (forall v, In v seen -> ~ less v lo /\ ~ less hi v) -> In lo seen -> In hi seen ->
     (forall v, In v (seen ++ l) -> v <> NaN) ->
     let m := mm_run ext ext_lt (mkMinMax false lo hi) l in
     In (mm_min m) (seen ++ l) /\ In (mm_max m) (seen ++ l) /\ forall v, In v (seen ++ l) -> ~ less v (mm_min m) /\ ~ less (mm_max m) v).
  { clear l Hne HN. induction l as [|x l IH]; intros seen lo hi H1 H2 H3 HN; cbn zeta.
    - rewrite app_nil_r. cbn. auto.
    - change (mm_run ext ext_lt (mkMinMax false lo hi) (x :: l))
        with (mm_run ext ext_lt (mkMinMax false (if ext_lt x lo then x else lo) (if ext_lt hi x then x else hi)) l).
      assert (NL : not_nan lo) by (apply HN, in_app_iff; auto).
      assert (NH : not_nan hi) by (apply HN, in_app_iff; auto).
      assert (NX : not_nan x) by (apply HN, in_app_iff; right; left; auto).
      replace (seen ++ x :: l) with ((seen ++ [x]) ++ l) in * by (rewrite <- app_assoc; reflexivity).
      apply IH; auto.
      + intros v Hv. apply in_app_iff in Hv. destruct Hv as [Hv|[<-|[]]].
        * destruct (H1 v Hv) as [A B].
          assert (NV : not_nan v) by (apply HN; rewrite !in_app_iff; auto).
          split.
          -- destruct (ext_lt x lo) eqn:E; auto. intros F. apply A. eapply O2; eauto.
          -- destruct (ext_lt hi x) eqn:E; auto. intros F. apply B. eapply O2; eauto.
        * split.
          -- destruct (ext_lt x lo) eqn:E; [apply O1|]. unfold less. congruence.
          -- destruct (ext_lt hi x) eqn:E; [apply O1|]. unfold less. congruence.
      + apply in_app_iff. destruct (ext_lt x lo); [right; left; auto|auto].
      + apply in_app_iff. destruct (ext_lt hi x); [right; left; auto|auto]. }
  destruct l as [|x l]; [contradiction|]. unfold mm_init. cbn [mm_run fold_left mm_feed mm_first].
  apply (G l [x] x x).
  - intros v [<-|[]]. split; apply O1.
  - left; auto.
  - left; auto.
  - exact HN.
Qed.
Print Assumptions C30_minmax_functor.
Example C30_example : acc_run ext PInf ext_lt (Minimizer_op3 ext ext_lt) [(Fin 3, [0]); (Fin 1, [1]); (PInf, [2]); (Fin 1, [3])] = mkAcc (Fin 1) [1].
Proof. reflexivity. Qed.

(** * C31 *)
(** For a non-empty ascending sequence: true with the first position of the key iff present. *)
Theorem C31_findInSortedSequence : forall l x, l <> [] -> Sorted Z.le l ->
  exists r, findInSortedSequence l x = Ret r /\
    match r with
    | Some p => nth_error l p = Some x /\ forall q, q < p -> nth_error l q <> Some x
    | None => ~ In x l
    end.
Proof.
  intros l x Hne HS. apply Sorted_StronglySorted in HS; [|intros a b c; lia].
  assert (G : forall l p, StronglySorted Z.le l ->
    match fiss_loop l x p with
    | Some q => p <= q /\ nth_error l (q - p) = Some x /\ forall q', q' < q - p -> nth_error l q' <> Some x
    | None => ~ In x l
    end).
  { clear. induction l as [|y l IH]; intros p HS; cbn [fiss_loop]; [intros []|].
    inversion HS; subst. destruct (Z.ltb_spec x y).
    { intros [->|Hin]; [lia|]. rewrite Forall_forall in H2. apply H2 in Hin. lia. }
    destruct (Z.eqb_spec x y) as [->|Hne].
    { split; auto. rewrite Nat.sub_diag. split; auto. intros; lia. }
    specialize (IH (S p) H1). destruct (fiss_loop l x (S p)) as [q|].
    - destruct IH as [A [B C]]. split; [lia|]. replace (q - p) with (S (q - S p)) by lia. split; auto.
      intros [|q'] Hq'; [cbn; congruence|]. cbn. apply C. lia.
    - intros [->|Hin]; auto. }
  unfold findInSortedSequence. destruct l as [|y l]; [contradiction|].
  set (L := y :: l) in *. assert (HL : length L - 1 < length L) by (cbn; lia).
  rewrite (rd_nth _ L _ 0%Z) by auto. cbn [bind].
  destruct (Z.ltb_spec (nth (length L - 1) L 0%Z) x) as [Hlt|Hge].
  - exists None. split; auto. intros Hin. apply (In_nth _ _ 0%Z) in Hin. destruct Hin as [i [Hi Ei]].
    assert (M : forall i j, i <= j -> j < length L -> (nth i L 0 <= nth j L 0)%Z).
    { clear - HS. clearbody L. induction HS as [|a L HS IH HF]; intros i j Hij Hj; [cbn in Hj; lia|].
      destruct i, j; cbn in *; try lia.
      - rewrite Forall_forall in HF. apply HF. apply nth_In. lia.
      - apply IH; lia. }
    specialize (M i (length L - 1)). lia.
  - exists (fiss_loop L x 0). split; auto. specialize (G L 0 HS). destruct (fiss_loop L x 0) as [q|]; auto.
    rewrite Nat.sub_0_r in G. tauto.
Qed.
Print Assumptions C31_findInSortedSequence.
Theorem C31_findInSortedSequence_empty_refuted : forall x, findInSortedSequence [] x = Undef.
Proof. reflexivity. Qed.

(** isSorted decides whether the sequence is ascending. *)
Theorem C31_isSorted : forall l, isSorted l = true <-> Sorted Z.le l.
Proof.
  assert (G : forall l t, isSorted_loop l t = true <-> Sorted Z.le (t :: l)).
  { induction l as [|x l IH]; intros t; cbn [isSorted_loop].
    - split; auto; intros; repeat constructor.
    - destruct (Z.ltb_spec x t).
      + split; [discriminate|]. intros HS. inversion HS; subst. inversion H3; subst. lia.
      + rewrite IH. split; intros HS; [constructor; auto|inversion HS; auto]. }
  intros l. unfold isSorted. destruct l as [|x [|y l]].
  - cbn. split; auto.
  - cbn. split; auto; intros; repeat constructor.
  - cbn [length Nat.ltb Nat.leb]. rewrite G. split; intros HS; [inversion HS; auto|]. constructor; auto. constructor. lia.
Qed.
Print Assumptions C31_isSorted.

(** doubleSort, for every std::sort that permutes and sorts by the first component: the first
    sequence ends up ascending and the pairs at equal positions are a rearrangement of the
    original pairs; elements of the second sequence behind the range are untouched. *)
Theorem C31_doubleSort : forall (B : Type) (sort : list (Z * B) -> list (Z * B)),
  (forall l, Permutation l (sort l)) ->
  (forall l, Sorted (fun p q => (fst p <= fst q)%Z) (sort l)) ->
  forall a b b2, length b = length a ->
  exists a' b', doubleSort B sort a (b ++ b2) = Ret (a', b' ++ b2) /\ length b' = length b /\
    Sorted Z.le a' /\ Permutation (combine a b) (combine a' b').
Proof.
  intros B sort HPm HSr a b b2 L. unfold doubleSort.
  assert (E1 : mapM (fun i => x <- rd a i ;; y <- rd (b ++ b2) i ;; Ret (x, y)) (seq 0 (length a)) = Ret (combine a b)).
  { assert (K : forall n, n <= length a -> mapM (fun i => x <- rd a i ;; y <- rd (b ++ b2) i ;; Ret (x, y)) (seq (length a - n) n) = Ret (skipn (length a - n) (combine a b))).
    { induction n; intros Hn; cbn [seq mapM].
      - rewrite Nat.sub_0_r. rewrite skipn_all2; auto. rewrite combine_length. lia.
      - set (i := length a - S n). replace (length a - n) with (S i) in IHn by lia.
        assert (Hi : i < length (combine a b)) by (rewrite combine_length; lia).
        assert (Ea : exists x, nth_error a i = Some x) by (destruct (nth_error a i) eqn:?; eauto; apply nth_error_None in Heqo; lia).
        assert (Eb : exists y, nth_error b i = Some y) by (destruct (nth_error b i) eqn:?; eauto; apply nth_error_None in Heqo; lia).
        destruct Ea as [x Ex]. destruct Eb as [y Ey].
        unfold rd. rewrite Ex. rewrite nth_error_app1 by lia. rewrite Ey. cbn [bind]. unfold rd in IHn. rewrite IHn by lia. cbn [bind]. f_equal.
        assert (N : nth_error (combine a b) i = Some (x, y)).
        { clearbody i. clear - Ex Ey. revert b i Ex Ey. induction a as [|a0 a IH]; intros [|b0 b] [|i] Ex Ey; cbn in *; try discriminate; auto. congruence. }
        clearbody i. clear - N. revert i N. induction (combine a b) as [|z l IH]; intros [|i] N; cbn in *; try discriminate; [congruence|auto]. }
    specialize (K (length a) (le_n _)). rewrite Nat.sub_diag in K. exact K. }
  rewrite E1. cbn [bind]. set (so := sort (combine a b)).
  assert (Lso : length so = length a).
  { unfold so. rewrite <- (Permutation_length (HPm (combine a b))), combine_length. lia. }
  assert (G : forall n, n <= length a -> foldM (fun (st : list Z * list B) i =>
      let '(a, b) := st in p <- rd so i ;; a' <- wr a i (fst p) ;; b' <- wr b i (snd p) ;; Ret (a', b'))
      (seq 0 n) (a, b ++ b2) = Ret (map fst (firstn n so) ++ skipn n a, map snd (firstn n so) ++ skipn n (b ++ b2))).
  { induction n; intros Hn; [reflexivity|]. rewrite seq_S, foldM_app, IHn by lia. cbn [bind foldM Nat.add].
    assert (exists p, nth_error so n = Some p) as [p Ep] by (destruct (nth_error so n) eqn:?; eauto; apply nth_error_None in Heqo; lia).
    unfold rd. rewrite Ep. cbn [bind].
    assert (F : firstn (S n) so = firstn n so ++ [p]).
    { clear - Ep. revert n Ep. induction so as [|z l IH]; intros [|n] Ep; cbn in *; try discriminate; [congruence|]. f_equal. auto. }
    assert (W : forall X (v : X) pre l, length pre = n -> n < length l -> wr (pre ++ skipn n l) n v = Ret ((pre ++ [v]) ++ skipn (S n) l)).
    { intros X v pre l Hp Hl. rewrite wr_Ret by (rewrite app_length, skipn_length; lia). f_equal.
      destruct (skipn_split _ l n Hl) as [w Ew].
      rewrite Ew, <- app_assoc. cbn [app]. subst n. clear. generalize (skipn (S (length pre)) l). intros r. induction pre as [|z pre IH]; cbn; auto. f_equal. auto. }
    assert (Lf : length (firstn n so) = n) by (rewrite firstn_length; lia).
    rewrite W; [|rewrite map_length; auto|lia]. cbn [bind]. rewrite W; [|rewrite map_length; auto|rewrite app_length; lia]. cbn [bind].
    rewrite F, !map_app. reflexivity. }
  exists (map fst so), (map snd so). rewrite G by auto.
  rewrite !(firstn_all2 so) by lia. rewrite (skipn_all2 a) by lia. rewrite app_nil_r. split.
  - rewrite skipn_app, skipn_all2 by lia. rewrite L, Nat.sub_diag. reflexivity.
  - split; [rewrite map_length; lia|]. split.
    + pose proof (HSr (combine a b)) as HS. fold so in HS. clear - HS. induction HS as [|p l HS IH HR]; cbn; constructor; auto.
      destruct HR; constructor; auto.
    + replace (combine (map fst so) (map snd so)) with so; [apply HPm|].
      clear. induction so as [|[x y] l IH]; cbn; congruence.
Qed.
Print Assumptions C31_doubleSort.
(** The contract of std::sort can be met. *)
Definition ins_by {B} (p : Z * B) := fix ins (l : list (Z * B)) := match l with [] => [p] | q :: r => if Z.leb (fst p) (fst q) then p :: l else q :: ins r end.
Definition sort_by {B} (l : list (Z * B)) := fold_right ins_by [] l.
Example C31_sort_contract : forall B, (forall l, Permutation l (@sort_by B l)) /\ (forall l, Sorted (fun p q => (fst p <= fst q)%Z) (@sort_by B l)).
Proof.
  intros B. split.
  - induction l as [|p l IH]; cbn; [constructor|]. transitivity (p :: sort_by l); [constructor; auto|].
    change (fold_right ins_by [] l) with (sort_by l) in *. generalize (sort_by l) as m. clear. induction m as [|q r IH]; cbn; [reflexivity|]. destruct (fst p <=? fst q)%Z; [reflexivity|].
    transitivity (q :: p :: r); [constructor|]. constructor. auto.
  - induction l as [|p l IH]; cbn; auto. revert IH. change (fold_right ins_by [] l) with (sort_by l) in *. generalize (sort_by l) as m. clear.
    induction m as [|q r IH]; intros HS; cbn; [repeat constructor|].
    destruct (Z.leb_spec (fst p) (fst q)); [constructor; auto|]. inversion HS; subst.
    constructor; auto. destruct r as [|z r]; cbn; [constructor; lia|]. destruct (fst p <=? fst z)%Z; constructor; [lia|].
    inversion H3; auto.
Qed.
Example C31_example : doubleSort nat sort_by [3; 1; 2]%Z [30; 10; 20] = Ret ([1; 2; 3]%Z, [10; 20; 30]) /\
  findInSortedSequence [1; 4; 4; 9]%Z 4%Z = Ret (Some 1) /\ isSorted [1; 4; 4; 9]%Z = true /\ isSorted [1; 4; 3]%Z = false.
Proof. vm_compute. auto. Qed.
