(** Lemmas for C50 and C51. *)
From Coq Require Import QArith Qcanon Sorted Permutation Lqa.
From Verif Require Import Base ShapeSpec ShapeProofs IndexingModel UtilModel FunctionsModel FunctionsSpec FunctionsProofs ConstraintModel ConstraintSpec.
Open Scope nat_scope.

(** ** Linear arithmetic of exact rationals *)
Lemma Qc_eq_Q : forall a b : Qc, a = b -> (this a == this b)%Q. Proof. intros a b ->. reflexivity. Qed.
Ltac qc_hyps :=
  repeat match goal with H : @eq Qc ?a ?b |- _ => apply Qc_eq_Q in H end.
Ltac qc :=
  qc_hyps; unfold Qcle, Qclt in *; try apply Qc_is_canon; unfold Qcminus, Qcplus, Qcmult, Qcopp in *; cbn [this Q2Qc] in *;
  repeat match goal with H : context [Qred _] |- _ => rewrite ?Qred_correct in H; revert H end; intros; rewrite ?Qred_correct; cbn [Qnum Qden this] in *; lra.

Lemma Qc_lt_true : forall a b, Qc_lt a b = true <-> (a < b)%Qc.
Proof. intros a b. unfold Qc_lt. destruct (Qclt_le_dec a b) as [L|L]; split; intros H; auto; try discriminate. exfalso. apply (Qclt_not_le _ _ H L). Qed.
Lemma Qc_lt_false : forall a b, Qc_lt a b = false <-> (b <= a)%Qc.
Proof. intros a b. unfold Qc_lt. destruct (Qclt_le_dec a b) as [L|L]; split; intros H; auto; try discriminate. exfalso. apply (Qclt_not_le _ _ L H). Qed.

(** ** Indicator variables *)
Lemma iv_call_ok : forall v x, Forall (fun p => fst p < length x) (iv_pairs v) -> iv_call v x = Ret (holds v x).
Proof.
  intros [o ps] x. unfold iv_call, holds. cbn [iv_op iv_pairs]. intros H. destruct o; induction H as [|[a b] ps Ha H IH]; cbn [iv_and iv_or iv_not forallb existsb negb]; auto;
    cbn [fst snd] in *; rewrite (rd_nth _ _ _ 0) by auto; cbn [bind]; rewrite (Nat.eqb_sym b); destruct (nth a x 0 =? b) eqn:E; cbn [negb andb orb]; auto.
Qed.
(** ** Linear constraints *)
Lemma lhs_loop : forall ivs ks x pre kpre acc, length ks = length ivs -> Forall (fun v => Forall (fun p => fst p < length x) (iv_pairs v)) ivs -> length kpre = length pre ->
  foldM (fun lhs i => v <- rd (pre ++ ivs) i ;; t <- iv_call v x ;; if t : bool then k <- rd (kpre ++ ks) i ;; Ret (lhs + k)%Qc else Ret lhs) (seq (length pre) (length ivs)) acc
  = Ret (acc + Qc_sum (map (fun p => (snd p * indicated x (fst p))%Qc) (combine ivs ks)))%Qc.
Proof.
  induction ivs as [|v ivs IH]; intros [|k ks] x pre kpre acc HL HF HP; cbn in HL; try lia; cbn [length seq foldM combine map Qc_sum fold_right]. { f_equal. qc. }
  inversion HF as [|? ? Hv HF']; subst. rewrite (rd_Ret _ _ _ v) by (rewrite nth_error_app2, Nat.sub_diag; auto). cbn [bind]. rewrite iv_call_ok by auto. cbn [bind].
  specialize (IH ks x (pre ++ [v]) (kpre ++ [k])). rewrite <- !app_assoc, !app_length in IH. cbn [app length] in IH. rewrite !Nat.add_1_r in IH. cbn [fst snd]. unfold indicated at 1. destruct (holds v x) eqn:E.
  - rewrite (rd_Ret _ _ _ k) by (rewrite <- HP, nth_error_app2, Nat.sub_diag; auto). cbn [bind]. rewrite IH by (auto; lia). f_equal. unfold Qc_sum. qc.
  - cbn [bind]. rewrite IH by (auto; lia). f_equal. unfold Qc_sum. qc.
Qed.
Lemma lc_call_ok : forall c x, length (lc_coeffs c) = length (lc_ivs c) -> Forall (fun v => Forall (fun p => fst p < length x) (iv_pairs v)) (lc_ivs c) ->
  lc_call c x = Ret (lc_weight (lc_op c) (lhs c (indicated x) - lc_bound c)%Qc).
Proof.
  intros c x HL HF. unfold lc_call. pose proof (lhs_loop (lc_ivs c) (lc_coeffs c) x [] [] 0%Qc HL HF eq_refl) as E. cbn [app length] in E. rewrite E. cbn [bind]. unfold lhs. do 3 f_equal. qc.
Qed.
Lemma within_dec : forall c val tol, {within c val tol} + {~ within c val tol}.
Proof.
  intros c val tol. unfold within. destruct (lc_op c).
  - destruct (Qclt_le_dec (lc_bound c + tol) (lhs c val)) as [L|L]; [right|left]; auto. apply Qclt_not_le; auto.
  - destruct (Qclt_le_dec (lc_bound c + tol) (lhs c val)) as [L|L]. { right. intros [_ H]. apply (Qclt_not_le _ _ L H). }
    destruct (Qclt_le_dec (lhs c val) (lc_bound c - tol)) as [M|M]. { right. intros [H _]. apply (Qclt_not_le _ _ M H). } left. auto.
  - destruct (Qclt_le_dec (lhs c val) (lc_bound c - tol)) as [L|L]; [right|left]; auto. apply Qclt_not_le; auto.
Qed.
Lemma weight_within : forall c val tol, (0 <= tol)%Qc -> Qc_lt tol (lc_weight (lc_op c) (lhs c val - lc_bound c)) = (if within_dec c val tol then false else true) /\
  (~ within c val tol -> lc_weight (lc_op c) (lhs c val - lc_bound c) = excess c val).
Proof.
  intros c val tol HT. unfold lc_weight. destruct (within_dec c val tol) as [W|W]; unfold within, excess in *; set (l := lhs c val) in *; set (b := lc_bound c) in *; destruct (lc_op c).
  - split; [|intros H; contradiction]. apply Qc_lt_false. destruct (Qc_lt 0 (l - b)) eqn:E; auto. qc.
  - split; [|intros H; contradiction]. destruct W as [W1 W2]. apply Qc_lt_false. destruct (Qc_lt 0 (l - b)) eqn:E; [qc|]. destruct (Qc_lt (l - b) 0) eqn:E1; [qc|]. auto.
  - split; [|intros H; contradiction]. apply Qc_lt_false. destruct (Qc_lt (l - b) 0) eqn:E; [qc|]. auto.
  - apply Qcnot_le_lt in W. assert (P : Qc_lt 0 (l - b) = true) by (apply Qc_lt_true; qc). rewrite P. split; auto. apply Qc_lt_true. qc.
  - assert (D : (b + tol < l)%Qc \/ (l < b - tol)%Qc).
    { destruct (Qclt_le_dec (b + tol) l) as [L|L]; auto. destruct (Qclt_le_dec l (b - tol)) as [M|M]; auto. exfalso. auto. }
    destruct D as [D|D].
    + assert (P : Qc_lt 0 (l - b) = true) by (apply Qc_lt_true; qc). rewrite P. split. { apply Qc_lt_true. qc. } intros _. destruct (Qclt_le_dec b l) as [L|L]; auto. exfalso. qc.
    + assert (P : Qc_lt 0 (l - b) = false) by (apply Qc_lt_false; qc). assert (R : Qc_lt (l - b) 0 = true) by (apply Qc_lt_true; qc). rewrite P, R. split. { apply Qc_lt_true. qc. }
      intros _. destruct (Qclt_le_dec b l) as [L|L]. { exfalso. qc. } qc.
  - apply Qcnot_le_lt in W. assert (P : Qc_lt (l - b) 0 = true) by (apply Qc_lt_true; qc). rewrite P. split. { apply Qc_lt_true. qc. } intros _. qc.
Qed.
(** ** The lists of violated constraints *)
Definition violated (cs : list lc) (val : iv -> Qc) (tol : Qc) (i : nat) : list (nat * Qc) :=
  match nth_error cs i with Some c => if within_dec c val tol then [] else [(i, excess c val)] | None => [] end.
Lemma report_loop : forall cs val tol (body : list (nat * Qc) -> nat -> outcome (list (nat * Qc))),
  (forall out i, i < length cs -> body out i = Ret (out ++ violated cs val tol i)) ->
  exists r, foldM body (seq 0 (length cs)) [] = Ret r /\ reports cs val tol r.
Proof.
  intros cs val tol body HB.
  assert (G : forall n, n <= length cs -> exists r, foldM body (seq 0 n) [] = Ret r /\ StronglySorted lt (map fst r) /\ Forall (fun p => fst p < n) r /\
    forall i w, In (i, w) r <-> i < n /\ exists c, nth_error cs i = Some c /\ ~ within c val tol /\ w = excess c val).
  { induction n as [|n IH]; intros Hn. { exists []. cbn. repeat split; auto; try constructor; intros; try contradiction. destruct H as [H _]. lia. }
    destruct (IH ltac:(lia)) as (r & E & S1 & S2 & S3). rewrite seq_S, foldM_app, E. cbn [bind foldM plus]. rewrite HB by lia. cbn [bind]. eexists. split; [reflexivity|].
    unfold violated. destruct (nth_error cs n) as [c|] eqn:Ec; [|apply nth_error_None in Ec; lia]. destruct (within_dec c val tol) as [W|W].
    - rewrite app_nil_r. split; auto. split. { eapply Forall_impl; [|apply S2]. cbn. intros; lia. }
      intros i w. rewrite S3. split. { intros [H1 H2]. split; [lia|auto]. } intros (H1 & c' & H2 & H3 & H4). split; [|eauto]. assert (i <> n) by (intros ->; congruence). lia.
    - split. { rewrite map_app. cbn. clear - S1 S2. induction r as [|p r IH]; cbn in *. { repeat constructor. } inversion S1; subst. inversion S2; subst. constructor; auto. apply Forall_app. split; auto. }
      split. { apply Forall_app. split. { eapply Forall_impl; [|apply S2]. cbn. intros; lia. } repeat constructor. }
      intros i w. rewrite in_app_iff, S3. cbn [In]. split.
      + intros [[H1 H2]|[H|[]]]. { split; [lia|auto]. } injection H as <- <-. split; [lia|eauto].
      + intros (H1 & c' & H2 & H3 & H4). destruct (Nat.eq_dec i n) as [->|NE]; [right; left; congruence|]. left. split; [lia|eauto]. }
  destruct (G (length cs) ltac:(lia)) as (r & E & S1 & _ & S3). exists r. split; auto. split; auto. intros i w. rewrite S3. split; [intros [_ H]; auto|]. intros H. split; auto.
  destruct H as (c & H & _). apply nth_error_Some. congruence.
Qed.
Lemma single_report : forall c val tol, reports [c] val tol (violated [c] val tol 0).
Proof.
  intros c val tol. destruct (report_loop [c] val tol (fun out i => Ret (out ++ violated [c] val tol i))) as (r & E & R). { auto. }
  cbn [length seq foldM bind app] in E. injection E as <-. exact R.
Qed.
(** ** LinearConstraintFunction *)
Lemma pairs_eqb_eq : forall a b, pairs_eqb a b = true <-> a = b.
Proof.
  induction a as [|[p q] a IH]; intros [|[r s] b]; cbn; split; intros H; auto; try discriminate.
  - apply andb_prop in H as [H H3]. apply andb_prop in H as [H1 H2]. apply Nat.eqb_eq in H1, H2. apply IH in H3. congruence.
  - injection H as -> -> ->. rewrite !Nat.eqb_refl. apply IH. auto.
Qed.
Lemma lop_code_inj : forall a b, lop_code a = lop_code b -> a = b. Proof. intros [] []; cbn; intros; auto; discriminate. Qed.
Lemma iv_eqb_eq : forall a b, iv_eqb a b = true <-> a = b.
Proof.
  intros [o p] [o' p']. unfold iv_eqb. cbn [iv_op iv_pairs]. split; intros H.
  - apply andb_prop in H as [H1 H2]. apply Nat.eqb_eq, lop_code_inj in H1. apply pairs_eqb_eq in H2. congruence.
  - injection H as -> ->. rewrite Nat.eqb_refl. apply pairs_eqb_eq. auto.
Qed.
Lemma iv_find_le : forall l v, iv_find l v <= length l. Proof. induction l as [|w l IH]; intros v; cbn; auto. destruct (iv_eqb w v); [lia|]. specialize (IH v). lia. Qed.
Lemma iv_find_notin : forall l v, iv_find l v = length l <-> ~ In v l.
Proof.
  induction l as [|w l IH]; intros v; cbn. { tauto. } destruct (iv_eqb w v) eqn:E.
  - apply iv_eqb_eq in E. subst. split; [discriminate|]. intros H. exfalso. auto.
  - specialize (IH v). assert (w <> v). { intros ->. assert (X : iv_eqb v v = true) by (apply iv_eqb_eq; auto). congruence. } split; intros H1; [|f_equal; tauto]. injection H1 as H1. tauto.
Qed.
Lemma iv_find_in : forall l v, In v l -> nth_error l (iv_find l v) = Some v.
Proof.
  induction l as [|w l IH]; intros v H; [destruct H|]. cbn. destruct (iv_eqb w v) eqn:E. { apply iv_eqb_eq in E. subst. auto. }
  cbn. apply IH. destruct H as [H|H]; auto. subst. assert (X : iv_eqb v v = true) by (apply iv_eqb_eq; auto). congruence.
Qed.
Lemma fill_row_ivs : forall vs l, NoDup l -> let l' := fold_left (fun l v => if iv_find l v =? length l then l ++ [v] else l) vs l in
  NoDup l' /\ forall v, In v l' <-> In v l \/ In v vs.
Proof.
  induction vs as [|w vs IH]; intros l HN; cbn [fold_left]. { split; auto. intros v. cbn. tauto. }
  destruct (iv_find l w =? length l) eqn:E.
  - apply Nat.eqb_eq, iv_find_notin in E. destruct (IH (l ++ [w])) as [H1 H2]. { apply NoDup_app_intro; auto. { repeat constructor. auto. } intros x Hx [->|[]]. auto. }
    split; auto. intros v. rewrite H2, in_app_iff. cbn. tauto.
  - assert (Hw : In w l). { destruct (in_dec (fun a b => match Bool.bool_dec (iv_eqb a b) true with left e => left (proj1 (iv_eqb_eq a b) e) | right n => right (fun H => n (proj2 (iv_eqb_eq a b) H)) end) w l) as [H|H]; auto.
      apply iv_find_notin in H. apply Nat.eqb_neq in E. contradiction. }
    destruct (IH l HN) as [H1 H2]. split; auto. intros v. rewrite H2. cbn. split; [tauto|]. intros [H|[H|H]]; auto. subst. auto.
Qed.
Lemma fill_ivs : forall cs l, NoDup l -> let l' := fold_left (fun l c => fold_left (fun l v => if iv_find l v =? length l then l ++ [v] else l) (lc_ivs c) l) cs l in
  NoDup l' /\ forall v, In v l' <-> In v l \/ In v (all_ivs cs).
Proof.
  induction cs as [|c cs IH]; intros l HN; cbn [fold_left]. { split; auto. intros v. cbn. tauto. }
  destruct (fill_row_ivs (lc_ivs c) l HN) as [H1 H2]. destruct (IH _ H1) as [H3 H4]. split; auto. intros v. rewrite H4, H2. unfold all_ivs. cbn [map concat]. rewrite in_app_iff. tauto.
Qed.
Lemma strict_weak_incl : forall A (lt : A -> A -> bool) l k, incl k l -> strict_weak lt l -> strict_weak lt k.
Proof. intros A lt l k I (H1 & H2 & H3). split; [|split]; intros; eauto. Qed.

Section Linear.
Variable iv_sort : list iv -> outcome (list iv).
Variable TOL : Qc.
Hypothesis Hsort : sorts iv_lt iv_sort.
Lemma lcf_new_ok : forall sh cs valid invalid, strict_weak iv_lt (all_ivs cs) ->
  exists l, lcf_new iv_sort sh cs valid invalid = Ret (mkLcf sh (accumulate_size sh) cs valid invalid l (lcf_lookup l cs)) /\
    NoDup l /\ (forall v, In v l <-> In v (all_ivs cs)) /\ StronglySorted (fun a b => iv_lt b a = false) l.
Proof.
  intros sh cs valid invalid HS. unfold lcf_new, lcf_fill. destruct (fill_ivs cs [] (NoDup_nil _)) as [H1 H2]. set (l0 := fold_left _ cs []) in *.
  destruct (Hsort l0) as (l & E & P & S). { apply (strict_weak_incl _ _ (all_ivs cs)); auto. intros v Hv. apply H2 in Hv as [[]|Hv]. auto. }
  rewrite E. exists l. split; auto. split. { eapply Permutation_NoDup; eauto. } split; auto. intros v.
  split; intros H. { apply (Permutation_in _ (Permutation_sym P)) in H. apply H2 in H as [[]|H]; auto. } apply (Permutation_in _ P). apply H2. auto.
Qed.
Lemma lcf_check_ok : forall cs x, (0 <= TOL)%Qc -> Forall (fun c => length (lc_coeffs c) = length (lc_ivs c) /\ Forall (fun v => Forall (fun p => fst p < length x) (iv_pairs v)) (lc_ivs c)) cs ->
  exists b, lcf_check TOL cs x = Ret b /\ (b = true <-> Forall (fun c => within c (indicated x) TOL) cs).
Proof.
  intros cs x HT. induction 1 as [|c cs [HL HV] HF IH]; cbn [lcf_check]. { exists true. split; auto. split; auto. }
  rewrite lc_call_ok by auto. cbn [bind]. destruct (weight_within c (indicated x) TOL HT) as [E _]. rewrite E. destruct (within_dec c (indicated x) TOL) as [W|W].
  - destruct IH as (b & Eb & Hb). exists b. split; auto. rewrite Hb. split; intros H; [constructor; auto|inversion H; auto].
  - exists false. split; auto. split; [discriminate|]. intros H. inversion H; contradiction.
Qed.
Lemma relaxed_row : forall l val more vs ks pre kpre acc, (forall v, In v vs -> In v l) -> length ks = length vs -> length kpre = length pre ->
  foldM (fun r j => id <- rd (pre ++ map (iv_find l) vs) j ;; v <- rd (map val l ++ more) id ;; k <- rd (kpre ++ ks) j ;; Ret (r + v * k)%Qc) (seq (length pre) (length vs)) acc
  = Ret (acc + Qc_sum (map (fun p => (snd p * val (fst p))%Qc) (combine vs ks)))%Qc.
Proof.
  intros l val more. induction vs as [|v vs IH]; intros [|k ks] pre kpre acc HI HL HP; cbn in HL; try lia; cbn [length seq foldM combine map Qc_sum fold_right]. { f_equal. qc. }
  rewrite (rd_Ret _ _ _ (iv_find l v)) by (rewrite nth_error_app2, Nat.sub_diag; auto). cbn [bind].
  assert (Hv : nth_error l (iv_find l v) = Some v) by (apply iv_find_in, HI; cbn; auto).
  rewrite (rd_Ret _ _ _ (val v)). 2: { rewrite nth_error_app1; [apply map_nth_error; auto|]. rewrite map_length. apply nth_error_Some. congruence. }
  cbn [bind]. rewrite (rd_Ret _ _ _ k) by (rewrite <- HP, nth_error_app2, Nat.sub_diag; auto). cbn [bind].
  specialize (IH ks (pre ++ [iv_find l v]) (kpre ++ [k])). rewrite <- !app_assoc, !app_length in IH. cbn [app length] in IH. rewrite !Nat.add_1_r in IH.
  rewrite IH by (auto; intros; try apply HI; cbn; auto; lia). f_equal. cbn [fst snd]. unfold Qc_sum. qc.
Qed.
Lemma weight_relaxed : forall c val tol, (0 <= tol)%Qc -> let weight := (lhs c val - lc_bound c)%Qc in forall (out : list (nat * Qc)) i,
  (match lc_op c with
   | LessEqual => if Qc_lt tol weight then out ++ [(i, weight)] else out
   | Equal => if Qc_lt tol weight then out ++ [(i, weight)] else if Qc_lt weight (- tol)%Qc then out ++ [(i, (- weight)%Qc)] else out
   | GreaterEqual => if Qc_lt weight (- tol)%Qc then out ++ [(i, (- weight)%Qc)] else out
   end) = out ++ (if within_dec c val tol then [] else [(i, excess c val)]).
Proof.
  intros c val tol HT weight out i. subst weight. destruct (within_dec c val tol) as [W|W]; unfold within in W; unfold excess; set (l := lhs c val) in *; set (b := lc_bound c) in *; destruct (lc_op c).
  - assert (E : Qc_lt tol (l - b) = false) by (apply Qc_lt_false; qc). rewrite E. rewrite app_nil_r. auto.
  - destruct W as [W1 W2]. assert (E : Qc_lt tol (l - b) = false) by (apply Qc_lt_false; qc). assert (E1 : Qc_lt (l - b) (- tol) = false) by (apply Qc_lt_false; qc). rewrite E, E1.
    rewrite app_nil_r. auto.
  - assert (E : Qc_lt (l - b) (- tol) = false) by (apply Qc_lt_false; qc). rewrite E. rewrite app_nil_r. auto.
  - apply Qcnot_le_lt in W. assert (E : Qc_lt tol (l - b) = true) by (apply Qc_lt_true; qc). rewrite E. auto.
  - destruct (Qclt_le_dec (b + tol) l) as [L|L].
    + assert (E : Qc_lt tol (l - b) = true) by (apply Qc_lt_true; qc). rewrite E. destruct (Qclt_le_dec b l) as [M|M]; [auto|exfalso; qc].
    + destruct (Qclt_le_dec l (b - tol)) as [M|M]; [|exfalso; auto]. assert (E : Qc_lt tol (l - b) = false) by (apply Qc_lt_false; qc). assert (E1 : Qc_lt (l - b) (- tol) = true) by (apply Qc_lt_true; qc). rewrite E, E1.
      destruct (Qclt_le_dec b l) as [R|R]; [exfalso; qc|]. do 3 f_equal. qc.
  - apply Qcnot_le_lt in W. assert (E : Qc_lt (l - b) (- tol) = true) by (apply Qc_lt_true; qc). rewrite E. do 3 f_equal. qc.
Qed.
End Linear.
