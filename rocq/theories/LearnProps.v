(** C48: functions with learnable weights. *)
From Coq Require Import Ring_theory Ring ZArithRing.
From Verif Require Import Base ShapeSpec ShapeProofs UtilModel RandomAccessSetModel FunctionsModel FunctionsSpec FunctionsProofs FunctionsProps LearnModel LearnSpec LearnProofs LearnBuild.

Section Props.
Variable T : Type.
Variables zero one : T.
Variables add mul sub : T -> T -> T.
Variable opp : T -> T.
Hypothesis RT : ring_theory zero one add mul sub opp (@eq T).
Add Ring TP : RT.
Notation sum := (sum T zero add).
Notation weighted := (weighted T zero add mul).
Notation lpotts_ln := (lpotts_ln T zero add mul).
Notation lunary_ln := (lunary_ln T zero add mul).
Notation lsum_ln := (lsum_ln T zero add mul).
Notation linear := (linear T zero add mul).
Notation derivative := (derivative T zero add mul).
Notation lpotts_ft := (lpotts_ft T zero add mul).
Notation lunary_ft := (lunary_ft T zero add mul).

(** A Potts function: the weighted sum of the features where the labels differ, zero where they are equal. *)
Theorem C48_potts : forall w numLabels ids feat, length feat = length ids -> Forall (fun i => i < length w) ids ->
  let f := lpotts_new T w numLabels ids feat in
  has_shape lpotts_ft f [numLabels; numLabels] /\
  (forall x y, ft_call lpotts_ft f [x; y] = Ret (if x =? y then zero else weighted w ids feat)) /\
  linear lpotts_ln f [numLabels; numLabels] (length w) /\ derivative lpotts_ln f [numLabels; numLabels] (length w).
Proof.
  intros w n ids feat L B f. assert (OK : lpotts_ok T f (length w)) by (split; auto). split.
  { split; auto. intros [|[|i]] Hi; cbn in *; auto; lia. }
  split; [intros x y; apply (lpotts_call_ok T zero one add mul sub opp RT f (length w) w x y); auto|].
  pose proof (lpotts_linear T zero one add mul sub opp RT f (length w) OK) as H. split; [exact H|]. apply (linear_derivative T zero one add mul sub opp RT). exact H.
Qed.

Lemma shape1 : forall (f : lunary T), has_shape lunary_ft f [lu_numberOfLabels T f].
Proof. intros f. split; auto. intros [|i] Hi; cbn in *; auto. lia. Qed.
Lemma nth_firstn_map : forall (A B : Type) (g : A -> B) l k, map g (firstn k l) = firstn k (map g l).
Proof. intros A B g l. induction l as [|a l IH]; intros [|k]; cbn; auto. f_equal. auto. Qed.

Lemma new_ok : forall w (fi : list (list T * list nat)) f, Forall (fun x => Forall (fun i => i < length w) (snd x)) fi -> lunary_new T zero w fi = Ret f ->
  lunary_ok T f (length w) /\ lu_weights T f = Some w /\ lu_numberOfLabels T f = length fi /\
  forall l x, nth_error fi l = Some x -> forall w', length w' = length w -> ft_call lunary_ft (lunary_setWeights T w' f) [l] = Ret (weighted w' (snd x) (fst x)).
Proof.
  intros w fi f B E. destruct (lunary_new_ok T zero w fi) as [H1 H2].
  assert (D : same_lengths T fi /\ NoDup (concat (map snd fi))).
  { destruct (Forall_dec _ (fun x : list T * list nat => Nat.eq_dec (length (snd x)) (length (fst x))) fi) as [SM|SM]; [|rewrite H2 in E by tauto; discriminate].
    destruct (ListDec.NoDup_dec Nat.eq_dec (concat (map snd fi))) as [ND|ND]; [|rewrite H2 in E by tauto; discriminate]. split; auto. }
  destruct D as [SM ND]. destruct (H1 SM ND) as (f' & E' & Ew & En & Ei & Ef & Lo & OO). rewrite E in E'. injection E' as <-.
  assert (BND : forall l x, nth_error fi l = Some x -> before T fi l + length (snd x) <= length (concat (map snd fi)) /\ before T fi l + length (snd x) <= length (concat (map fst fi)) /\ length (snd x) = length (fst x)).
  { intros l x Ex. assert (Lx : length (snd x) = length (fst x)). { unfold same_lengths in SM. rewrite Forall_forall in SM. apply SM. eapply nth_error_In; eauto. }
    assert (X : before T fi (S l) <= length (concat (map fst fi))). { unfold before. rewrite <- (firstn_skipn (S l) fi) at 2. rewrite map_app, concat_app, app_length. lia. }
    rewrite (before_S _ _ _ _ _ Ex) in X. rewrite (same_concat _ _ SM). lia. }
  assert (OK : lunary_ok T f (length w)).
  { split; [rewrite En; auto|]. split; [rewrite Ei; apply Forall_concat; rewrite Forall_map; auto|]. rewrite En. intros l Hl. destruct (nth_error fi l) as [x|] eqn:Ex; [|apply nth_error_None in Ex; lia].
    exists (length (snd x)), (before T fi l), (before T fi l). split; [auto|]. rewrite Ei, Ef. destruct (BND l x Ex) as (A & C & _). auto. }
  split; auto. split; auto. split; auto. intros l x Ex w' Lw. assert (Hl : l < length fi) by (apply nth_error_Some; congruence). destruct (BND l x Ex) as (A & C & Lx).
  cbn [LearnModel.lunary_ft ft_call]. rewrite (lunary_call_ok T zero add mul (lunary_setWeights T w' f) (length w) w' l (length (snd x)) (before T fi l) (before T fi l)); auto; cbn [lunary_setWeights lu_numberOfLabels lu_offsets lu_weightIds lu_features lu_weights].
  - rewrite Ei, Ef. do 2 f_equal.
    + replace (before T fi l) with (length (concat (firstn l (map snd fi)))). { apply concat_part. rewrite nth_error_map, Ex. auto. } unfold before. rewrite <- nth_firstn_map. apply same_concat. apply same_firstn. auto.
    + rewrite Lx. unfold before. rewrite nth_firstn_map. apply concat_part. rewrite nth_error_map, Ex. auto.
  - rewrite En; auto.
  - rewrite En. auto.
  - rewrite Ei. auto.
  - rewrite Ef. auto.
Qed.

(** A unary function with features of its own for each label: the constructor accepts as many features as weights for
    each label and pairwise different weights, and refuses everything else; the value at a label is the weighted sum of
    the features of the label. *)
Theorem C48_unary : forall w (fi : list (list T * list nat)),
  Forall (fun x => Forall (fun i => i < length w) (snd x)) fi ->
  (Forall (fun x => length (snd x) = length (fst x)) fi -> NoDup (concat (map snd fi)) -> exists f, lunary_new T zero w fi = Ret f /\
     has_shape lunary_ft f [length fi] /\
     (forall l feat ids, nth_error fi l = Some (feat, ids) -> ft_call lunary_ft f [l] = Ret (weighted w ids feat)) /\
     linear lunary_ln f [length fi] (length w) /\ derivative lunary_ln f [length fi] (length w)) /\
  (~ (Forall (fun x => length (snd x) = length (fst x)) fi /\ NoDup (concat (map snd fi))) -> lunary_new T zero w fi = Throw).
Proof.
  intros w fi B. destruct (lunary_new_ok T zero w fi) as [H1 H2]. split; [|exact H2]. intros SM ND. destruct (H1 SM ND) as (f & E & _). exists f. split; auto.
  destruct (new_ok w fi f B E) as (OK & Ew & En & V). rewrite <- En. split; [apply shape1|]. split.
  - intros l feat ids Ex. replace f with (lunary_setWeights T w f) by (destruct f; cbn in Ew; subst; reflexivity). apply (V l (feat, ids) Ex w). auto.
  - pose proof (lunary_linear T zero one add mul sub opp RT f (length w) OK) as H. split; [exact H|]. apply (linear_derivative T zero one add mul sub opp RT). exact H.
Qed.

Lemma shared_ok : forall w n rows cols weightIds features (const : bool) f, length weightIds = rows -> Forall (fun r => length r = cols /\ Forall (fun i => i < length w) r) weightIds ->
  lunary_shared T w n rows cols weightIds features const = Ret f ->
  lunary_ok T f (length w) /\ lu_weights T f = Some w /\ lu_numberOfLabels T f = n /\
  (forall i row, nth_error weightIds i = Some row -> ft_call lunary_ft f [(if const then 1 else 0) + i] = Ret (weighted w row features)) /\
  (const = true -> ft_call lunary_ft f [0] = Ret zero).
Proof.
  intros w n rows cols wi features const f Lr HB E.
  assert (HR : Forall (fun r => length r = cols) wi) by (eapply Forall_impl; [|exact HB]; cbn; intros a [? ?]; auto).
  assert (HI : Forall (fun i => i < length w) (concat wi)) by (apply Forall_concat; eapply Forall_impl; [|exact HB]; cbn; intros a [? ?]; auto).
  set (first := if const then 1 else 0). destruct (lunary_shared_ok T w n rows cols wi features const Lr HR) as [H1 H2]. fold first in H1, H2.
  destruct (Nat.eq_dec (rows + first) n) as [Hn|Hn]; [|rewrite H2 in E by tauto; discriminate]. destruct (Nat.eq_dec (length features) cols) as [Hf|Hf]; [|rewrite H2 in E by tauto; discriminate].
  destruct (H1 Hn Hf) as (f' & E' & Ew & En & Ei & Ef & Lo & O1 & O2). rewrite E in E'. injection E' as <-. clear H1 H2.
  assert (LC : length (concat wi) = rows * cols) by (rewrite <- Lr; apply concat_rows; auto).
  assert (OK : lunary_ok T f (length w)).
  { split; [rewrite En; auto|]. split; [rewrite Ei; auto|]. rewrite En. intros l Hl. rewrite Ei, Ef, LC.
    destruct (Nat.lt_ge_cases l first) as [C|C].
    - assert (const = true /\ l = 0) as [Hc ->]. { unfold first in C. destruct const; split; auto; lia. } exists 0, 0, 0. split; auto. lia.
    - exists cols, ((l - first) * cols), 0. split; [replace l with (first + (l - first)) at 1 by lia; apply O1; lia|]. split; [|lia]. assert (S (l - first) <= rows) by lia. replace ((l - first) * cols + cols) with (S (l - first) * cols) by (cbn; lia). apply Nat.mul_le_mono_r. auto. }
  split; auto. split; auto. split; auto. split.
  - intros i row Er. assert (Hi : i < rows) by (rewrite <- Lr; apply nth_error_Some; congruence). assert (Lrow : length row = cols). { rewrite Forall_forall in HR. apply HR. eapply nth_error_In; eauto. }
    assert (LF : length (concat (firstn i wi)) = i * cols). { rewrite concat_rows with (cols := cols) by (apply Forall_firstn'; auto). rewrite firstn_length_le by lia. auto. }
    cbn [LearnModel.lunary_ft ft_call]. rewrite (lunary_call_ok T zero add mul f (length w) w (first + i) cols (i * cols) 0); auto.
    + rewrite Ei, Ef. rewrite <- LF. pose proof (concat_part _ wi i row Er) as CP. rewrite Lrow in CP. rewrite CP. cbn [skipn]. rewrite <- Hf, firstn_all. auto.
    + rewrite En. lia.
    + rewrite En. auto.
    + rewrite Ei, LC. assert (S i <= rows) by lia. replace (i * cols + cols) with (S i * cols) by (cbn; lia). apply Nat.mul_le_mono_r. auto.
    + rewrite Ef. lia.
  - intros Hc. cbn [LearnModel.lunary_ft ft_call]. rewrite (lunary_call_ok T zero add mul f (length w) w 0 0 0 0); auto; try (rewrite En; auto); try lia. unfold first in Hn. rewrite Hc in Hn. lia.
Qed.

(** A unary function with the same features for all labels and a row of weights for each label, or for each label but
    the first, whose value is then zero. *)
Theorem C48_unary_shared : forall w n rows cols weightIds features (const : bool),
  length weightIds = rows -> Forall (fun r => length r = cols /\ Forall (fun i => i < length w) r) weightIds ->
  let first := if const then 1 else 0 in
  (rows + first = n -> length features = cols -> exists f, lunary_shared T w n rows cols weightIds features const = Ret f /\
     has_shape lunary_ft f [n] /\
     (forall i row, nth_error weightIds i = Some row -> ft_call lunary_ft f [first + i] = Ret (weighted w row features)) /\
     (const = true -> ft_call lunary_ft f [0] = Ret zero) /\
     linear lunary_ln f [n] (length w) /\ derivative lunary_ln f [n] (length w)) /\
  (~ (rows + first = n /\ length features = cols) -> lunary_shared T w n rows cols weightIds features const = Throw).
Proof.
  intros w n rows cols wi features const Lr HB first.
  assert (HR : Forall (fun r => length r = cols) wi) by (eapply Forall_impl; [|exact HB]; cbn; intros a [? ?]; auto).
  destruct (lunary_shared_ok T w n rows cols wi features const Lr HR) as [H1 H2]. split; [|exact H2]. intros Hn Hf. destruct (H1 Hn Hf) as (f & E & _). exists f. split; auto.
  destruct (shared_ok w n rows cols wi features const f Lr HB E) as (OK & Ew & En & V1 & V2). rewrite <- En. split; [apply shape1|]. split; [exact V1|]. split; [exact V2|].
  pose proof (lunary_linear T zero one add mul sub opp RT f (length w) OK) as H. split; [exact H|]. apply (linear_derivative T zero one add mul sub opp RT). exact H.
Qed.

(** A weighted sum of tables over the same labels. *)
Theorem C48_weighted_sum : forall sh w ids (feat : list (explicitf T)), length feat = length ids -> Forall (fun i => i < length w) ids ->
  Forall (fun t => ex_shape t = sh /\ length (ex_data t) = size_of sh) feat ->
  let f := lsum_new T sh w ids feat in
  has_shape (lsum_ft T zero add mul) f sh /\
  (forall c, in_shape sh c -> ft_call (lsum_ft T zero add mul) f c = Ret (weighted w ids (map (fun t => nth (index_of sh c) (ex_data t) zero) feat))) /\
  linear lsum_ln f sh (length w) /\ derivative lsum_ln f sh (length w).
Proof.
  intros sh w ids feat L B HF f. split.
  { split; auto. intros i Hi. cbn [lsum_ft ft_shape f lsum_new ls_shape]. apply rd_nth; auto. }
  assert (G : forall c i w', in_shape sh c -> i < length ids -> lsum_weightGradient T (lsum_setWeights T w' f) i c = Ret (nth i (map (fun t => nth (index_of sh c) (ex_data t) zero) feat) zero)).
  { intros c i w' Hc Hi. unfold lsum_weightGradient. cbn [lsum_setWeights ls_feat f lsum_new]. destruct (nth_error feat i) as [t|] eqn:Et; [|apply nth_error_None in Et; lia].
    rewrite (rd_Ret _ _ _ _ Et). cbn [bind]. rewrite Forall_forall in HF. destruct (HF t (nth_error_In _ _ Et)) as [E1 E2]. destruct (explicit_call_spec T t c) as (v & Ev & Ec); [red; congruence|rewrite E1; auto|].
    rewrite Ec. f_equal. erewrite nth_error_nth with (x := v); auto. rewrite nth_error_map, Et. cbn. f_equal. rewrite E1 in Ev. apply nth_error_nth with (d := zero) in Ev. auto. }
  assert (V : forall c w', in_shape sh c -> length w' = length w -> ft_call (lsum_ft T zero add mul) (lsum_setWeights T w' f) c = Ret (weighted w' ids (map (fun t => nth (index_of sh c) (ex_data t) zero) feat))).
  { intros c w' Hc Lw. cbn [lsum_ft ft_call]. unfold lsum_call, lsum_numberOfWeights. set (vals := map (fun t => nth (index_of sh c) (ex_data t) zero) feat) in *.
    rewrite (sum_loop T add _ (fun i => mul (nth (nth i ids 0) w' zero) (nth i vals zero))).
    - f_equal. symmetry. apply weighted_seq; auto. unfold vals. rewrite map_length. auto.
    - intros val i Hi. cbn [lsum_setWeights ls_weightIDs f lsum_new ls_weights] in *. rewrite (rd_nth _ ids i 0) by lia. cbn [bind getWeight]. rewrite Forall_forall in B. assert (nth i ids 0 < length w) by (apply B, nth_In; lia).
      rewrite (rd_nth _ w' _ zero) by lia. cbn [bind]. change (mkLSum T (Some w') sh ids feat) with (lsum_setWeights T w' f). rewrite G by (auto; lia). reflexivity. }
  split; [intros c Hc; apply (V c w Hc eq_refl)|].
  assert (LN : linear lsum_ln f sh (length w)).
  { intros c Hc. exists ids, (map (fun t => nth (index_of sh c) (ex_data t) zero) feat). cbn [LearnModel.lsum_ln ln_numberOfWeights ln_weightIndex ln_weightGradient ln_ft ln_setWeights]. unfold lsum_numberOfWeights. cbn [f lsum_new ls_weightIDs].
    split; auto. split; [rewrite map_length; auto|]. split; [|intros w' Lw; apply V; auto]. intros i Hi. split; [unfold lsum_weightIndex; cbn; apply rd_nth; auto|]. split; [rewrite Forall_forall in B; apply B, nth_In; auto|]. apply (G c i w Hc Hi). }
  split; [exact LN|]. apply (linear_derivative T zero one add mul sub opp RT). exact LN.
Qed.

(** Writing and reading: into an object that points to the same weights. *)
Theorem C48_potts_round : forall w, round_trips lpotts_ft
  (fun f => exists numLabels ids feat, f = lpotts_new T w numLabels ids feat /\ length feat = length ids /\ Forall (fun i => i < length w) ids) (fun d => lp_weights T d = Some w).
Proof.
  intros w f dst sh (n & ids & feat & -> & L & B) Hd HS. destruct (lpotts_bytes T (lpotts_new T w n ids feat) [] [] dst L) as [H1 _].
  exists (n :: length feat :: ids), feat. split; [exact H1|]. split; [reflexivity|]. split; [reflexivity|]. intros ix vs.
  destruct (lpotts_bytes T (lpotts_new T w n ids feat) ix vs dst L) as [_ H2]. exists (lpotts_new T w n ids feat). split; [cbn [LearnModel.lpotts_ft ft_deserialize]; cbn [lpotts_new lp_numLabels lp_feat lp_weightIDs] in H2; rewrite H2, Hd; reflexivity|].
  split; auto. split; auto. split; auto. split; auto. intros c Hc. exists (match c with [x; y] => if x =? y then zero else weighted w ids feat | _ => zero end).
  destruct HS as [HD _]. cbn in HD. apply in_shape_length in Hc. destruct c as [|x [|y [|z c]]]; cbn in Hc; try lia. destruct (C48_potts w n ids feat L B) as (_ & V & _). rewrite V. auto.
Qed.
(** A function that one of the two constructors has made. *)
Definition unary_made (w : list T) (f : lunary T) : Prop :=
  (exists fi, Forall (fun x => Forall (fun i => i < length w) (snd x)) fi /\ lunary_new T zero w fi = Ret f) \/
  exists n rows cols weightIds features const, length weightIds = rows /\ Forall (fun r => length r = cols /\ Forall (fun i => i < length w) r) weightIds /\
    lunary_shared T w n rows cols weightIds features const = Ret f.
Theorem C48_unary_round : forall w, round_trips lunary_ft (unary_made w) (fun d => lu_weights T d = Some w).
Proof.
  intros w f dst sh HM Hd HS.
  assert (OK : lunary_ok T f (length w) /\ lu_weights T f = Some w).
  { destruct HM as [(fi & B & E)|(n & rows & cols & wi & fe & const & Lr & HB & E)].
    - destruct (new_ok w fi f B E) as (A & C & _). auto.
    - destruct (shared_ok w n rows cols wi fe const f Lr HB E) as (A & C & _). auto. }
  destruct OK as [OK Ew]. pose proof OK as (Lo & _ & HO). destruct (lunary_bytes T f [] [] dst Lo) as [H1 _]. eexists. eexists. split; [exact H1|].
  split; [cbn [LearnModel.lunary_ft ft_indexSequenceSize length]; rewrite app_length, Lo; lia|]. split; [reflexivity|]. intros ix vs. destruct (lunary_bytes T f ix vs dst Lo) as [_ H2].
  exists f. split; [cbn [LearnModel.lunary_ft ft_deserialize]; rewrite H2, Hd, <- Ew; destruct f; reflexivity|]. split; auto. split; auto. split; auto. split; auto.
  intros c Hc. assert (Q : exists l, c = [l] /\ l < lu_numberOfLabels T f).
  { destruct HS as [D1 D2]. destruct sh as [|n [|m sh]]; cbn in D1; try discriminate. specialize (D2 0 (Nat.lt_0_succ 0)). cbn in D2. injection D2 as <-. inversion Hc as [|l y c0 l0 Hl H0]; subst. inversion H0; subst. eauto. }
  destruct Q as (l & -> & Hl). destruct (HO l Hl) as (k & a & fo & O & Ha & Hf). eexists. split; apply (lunary_call_ok T zero add mul f (length w) w l k a fo); auto.
Qed.

(** Regularizers: the norms -1, 1 and 2, every other norm is refused. *)
Theorem C48_regularizer : forall absv lambda w,
  (forall norm, In norm [(-1)%Z; 1%Z; 2%Z] <-> exists r, regularizer_new norm = Ret r) /\ (forall norm, ~ In norm [(-1)%Z; 1%Z; 2%Z] -> regularizer_new norm = Throw) /\
  (forall r, regularizer_new (-1) = Ret r -> regularizer_evaluate T zero add mul absv r lambda w = zero) /\
  (forall r, regularizer_new 1 = Ret r -> regularizer_evaluate T zero add mul absv r lambda w = mul lambda (sum (map absv w))) /\
  (forall r, regularizer_new 2 = Ret r -> regularizer_evaluate T zero add mul absv r lambda w = mul lambda (sum (map (fun x => mul x x) w))).
Proof.
  assert (MF : forall (g : T -> T) l z, fold_left (fun val x => add val (g x)) l z = fold_left add (map g l) z) by (intros g l; induction l as [|a l IH]; intros z; cbn; auto).
  intros absv lambda w. split; [|split; [|split; [|split]]].
  - intros norm. unfold regularizer_new. split.
    + intros [<-|[<-|[<-|[]]]]; cbn; eauto.
    + intros [r H]. destruct (Z.eqb_spec norm (-1)); [left; auto|]. destruct (Z.eqb_spec norm 1); [right; left; auto|]. destruct (Z.eqb_spec norm 2); [right; right; left; auto|]. discriminate.
  - intros norm N. unfold regularizer_new. destruct (Z.eqb_spec norm (-1)); [exfalso; apply N; left; auto|]. destruct (Z.eqb_spec norm 1); [exfalso; apply N; right; left; auto|]. destruct (Z.eqb_spec norm 2); [exfalso; apply N; right; right; left; auto|]. auto.
  - intros r H. injection H as <-. auto.
  - intros r H. injection H as <-. cbn [regularizer_evaluate]. rewrite MF. unfold LearnSpec.sum. ring.
  - intros r H. injection H as <-. cbn [regularizer_evaluate]. rewrite MF. unfold LearnSpec.sum. ring.
Qed.
End Props.

(** Constraints on weights: what the object knows after any sequence of additions. *)
Definition add_all (T : Type) (lower upper : list T) (cs : list (list nat * list T * (T * T))) : outcome (wconstraints T) :=
  foldM (fun s c => wc_addConstraint T s (fst (fst c)) (snd (fst c)) (fst (snd c)) (snd (snd c))) cs (wc_new T lower upper).
Theorem C48_constraints_partial : forall (T : Type) lower upper (cs : list (list nat * list T * (T * T))),
  Forall (fun c => length (snd (fst c)) = length (fst (fst c))) cs ->
  exists s, add_all T lower upper cs = Ret s /\ wc_numberOfConstraints T s = length cs /\
    (forall i c, nth_error cs i = Some c -> wc_constraintSize T s i = Ret (length (fst (fst c)))) /\
    wc_indices T s = concat (map (fun c => fst (fst c)) cs) /\ wc_coeff T s = concat (map (fun c => snd (fst c)) cs).
Proof.
  intros T lower upper cs H. unfold add_all.
  assert (G : forall cs s done, Forall (fun c => length (snd (fst c)) = length (fst (fst c))) cs -> wc_size T s = map (fun c : list nat * list T * (T * T) => length (fst (fst c))) done -> length (wc_start T s) = length done ->
    exists s', foldM (fun s c => wc_addConstraint T s (fst (fst c)) (snd (fst c)) (fst (snd c)) (snd (snd c))) cs s = Ret s' /\ wc_size T s' = map (fun c => length (fst (fst c))) (done ++ cs) /\ length (wc_start T s') = length (done ++ cs) /\
      wc_indices T s' = wc_indices T s ++ concat (map (fun c => fst (fst c)) cs) /\ wc_coeff T s' = wc_coeff T s ++ concat (map (fun c => snd (fst c)) cs)).
  { clear. intros cs. induction cs as [|c cs IH]; intros s done H E1 E2.
    - exists s. cbn [foldM map concat]. rewrite !app_nil_r. auto 10.
    - inversion H as [|? ? Hc H']; subst. cbn [foldM]. unfold wc_addConstraint at 1. rewrite <- Hc, mapM_rd_all. cbn [bind].
      destruct (IH (mkWC T (wc_lower T s) (wc_upper T s) (wc_clower T s) (wc_cupper T s) (wc_offset T s + length (snd (fst c))) (wc_start T s ++ [wc_offset T s]) (wc_size T s ++ [length (snd (fst c))]) (wc_indices T s ++ fst (fst c)) (wc_coeff T s ++ snd (fst c))) (done ++ [c]) H')
        as (s' & E & A1 & A2 & A3 & A4).
      { cbn [wc_size]. rewrite E1, map_app. cbn. rewrite Hc. auto. } { cbn [wc_start]. rewrite !app_length. cbn. lia. }
      exists s'. split; [exact E|]. rewrite <- !app_assoc in A1, A2. cbn [app] in A1, A2. cbn [wc_indices wc_coeff] in A3, A4. cbn [map concat]. rewrite !app_assoc. auto. }
  destruct (G cs (wc_new T lower upper) [] H eq_refl eq_refl) as (s & E & E1 & E2 & E3 & E4). exists s. split; auto. split; [auto|]. split; [|split; auto].
  intros i c Ei. unfold wc_constraintSize. apply rd_Ret. rewrite E1. cbn [app]. rewrite nth_error_map, Ei. auto.
Qed.
(** The bounds that were given with a constraint cannot be asked for: the object never stores them. *)
Theorem C48_constraint_bounds_refuted : forall (T : Type) lower upper (cs : list (list nat * list T * (T * T))) s i, add_all T lower upper cs = Ret s ->
  wc_constraintLowerBound T s i = Undef /\ wc_constraintUpperBound T s i = Undef.
Proof.
  intros T lower upper cs s i H.
  assert (G : forall cs s0, wc_clower T s0 = [] /\ wc_cupper T s0 = [] -> foldM (fun s c => wc_addConstraint T s (fst (fst c)) (snd (fst c)) (fst (snd c)) (snd (snd c))) cs s0 = Ret s -> wc_clower T s = [] /\ wc_cupper T s = []).
  { clear. intros cs. induction cs as [|c cs IH]; intros s0 E H; cbn [foldM] in H; [injection H as <-; auto|]. unfold wc_addConstraint at 1 in H. destruct (mapM _ _) as [co| | |]; cbn [bind] in H; try discriminate. eapply IH; [|exact H]. auto. }
  destruct (G cs (wc_new T lower upper) (conj eq_refl eq_refl) H) as [E1 E2]. unfold wc_constraintLowerBound, wc_constraintUpperBound. rewrite E1, E2. destruct i; auto.
Qed.

(** A sum of tables does not survive writing and reading: the reader leaves its destination as it was. *)
Theorem C48_weighted_sum_round_refuted : exists (f dst : lsum Z) ix vs f',
  f = lsum_new Z [2] [3%Z] [0] [mkExplicit [2] [5; 7]%Z] /\ ft_serialize (lsum_ft Z 0%Z Z.add Z.mul) f = Ret (ix, vs) /\
  ft_deserialize (lsum_ft Z 0%Z Z.add Z.mul) ix vs (lsum_default Z) = Ret f' /\ ft_dimension (lsum_ft Z 0%Z Z.add Z.mul) f = 1 /\ ft_dimension (lsum_ft Z 0%Z Z.add Z.mul) f' = 0 /\
  (* and into an object with the same labels and the same weights: the values are those of the object *)
  dst = lsum_new Z [2] [3%Z] [0] [mkExplicit [2] [1; 1]%Z] /\ (exists f'', ft_deserialize (lsum_ft Z 0%Z Z.add Z.mul) ix vs dst = Ret f'' /\
    ft_call (lsum_ft Z 0%Z Z.add Z.mul) f [1] = Ret 21%Z /\ ft_call (lsum_ft Z 0%Z Z.add Z.mul) f'' [1] = Ret 3%Z).
Proof.
  exists (lsum_new Z [2] [3%Z] [0] [mkExplicit [2] [5; 7]%Z]), (lsum_new Z [2] [3%Z] [0] [mkExplicit [2] [1; 1]%Z]), [1; 2; 1; 0], [5; 7]%Z, (lsum_default Z).
  split; [reflexivity|]. split; [vm_compute; reflexivity|]. split; [vm_compute; reflexivity|]. split; [reflexivity|]. split; [reflexivity|]. split; [reflexivity|].
  exists (lsum_new Z [2] [3%Z] [0] [mkExplicit [2] [1; 1]%Z]). split; vm_compute; auto.
Qed.
(** A function that was read into an object without weights cannot be evaluated until it gets weights. *)
Theorem C48_weights_needed : forall (T : Type) zero add mul numLabels ids (feat : list T) w x y, length feat = length ids -> Forall (fun i => i < length w) ids -> ids <> [] ->
  let f := lpotts_new_without T numLabels ids feat in
  ft_call (lpotts_ft T zero add mul) f [x; y] = Undef /\ exists v, ft_call (lpotts_ft T zero add mul) (lpotts_setWeights T w f) [x; y] = Ret v.
Proof.
  intros T zero add mul n ids feat w x y L B NE f. split.
  - cbn [lpotts_ft ft_call]. unfold lpotts_call, lpotts_numberOfWeights. cbn [f lpotts_new_without lp_weightIDs]. destruct ids as [|i ids]; [congruence|]. cbn. reflexivity.
  - cbn [lpotts_ft ft_call]. unfold lpotts_call, lpotts_numberOfWeights. cbn [f lpotts_new_without lpotts_setWeights lp_weightIDs lp_weights].
    rewrite (sum_loop T add _ (fun i => mul (nth (nth i ids 0) w zero) (if x =? y then zero else nth i feat zero))); eauto.
    intros val i Hi. rewrite (rd_nth _ ids i 0) by lia. cbn [bind getWeight]. rewrite Forall_forall in B. rewrite (rd_nth _ w _ zero) by (apply B, nth_In; lia). cbn [bind]. unfold lpotts_weightGradient. change (rd [x; y] 0) with (Ret x). change (rd [x; y] 1) with (Ret y). change (lp_feat T (lpotts_setWeights T w f)) with feat. cbn [bind lp_feat lpotts_setWeights f lpotts_new_without].
    destruct (x =? y); cbn [negb]; [|rewrite (rd_nth _ feat i zero) by lia]; reflexivity.
Qed.

Print Assumptions C48_potts. Print Assumptions C48_unary. Print Assumptions C48_unary_shared. Print Assumptions C48_weighted_sum.
Print Assumptions C48_potts_round. Print Assumptions C48_unary_round. Print Assumptions C48_regularizer. Print Assumptions C48_constraints_partial.
Print Assumptions C48_constraint_bounds_refuted. Print Assumptions C48_weighted_sum_round_refuted. Print Assumptions C48_weights_needed.

(** Integers are a ring; two labels with two features and one, three weights. *)
Example C48_potts_case : let f := lpotts_new Z [2; 3; 5]%Z 4 [0; 2] [10; 1]%Z in
  ring_theory 0%Z 1%Z Z.add Z.mul Z.sub Z.opp (@eq Z) /\ ft_call (lpotts_ft Z 0%Z Z.add Z.mul) f [1; 3] = Ret 25%Z /\ ft_call (lpotts_ft Z 0%Z Z.add Z.mul) f [3; 3] = Ret 0%Z /\
  lpotts_weightGradient Z 0%Z f 1 [1; 3] = Ret 1%Z /\ ft_serialize (lpotts_ft Z 0%Z Z.add Z.mul) f = Ret ([4; 2; 0; 2], [10; 1]%Z).
Proof. split; [exact Zth|]. vm_compute. auto. Qed.
Example C48_unary_case : exists f, lunary_new Z 0%Z [2; 3; 5]%Z [([10; 1]%Z, [0; 2]); ([7]%Z, [1])] = Ret f /\
  ft_call (lunary_ft Z 0%Z Z.add Z.mul) f [0] = Ret 25%Z /\ ft_call (lunary_ft Z 0%Z Z.add Z.mul) f [1] = Ret 21%Z /\
  lunary_weightGradient Z 0%Z f 2 [0] = Ret 0%Z /\ lunary_weightGradient Z 0%Z f 2 [1] = Ret 7%Z /\
  lunary_new Z 0%Z [2; 3; 5]%Z [([10; 1]%Z, [0; 2]); ([7]%Z, [2])] = Throw /\ lunary_new Z 0%Z [2; 3; 5]%Z [([10; 1]%Z, [0]); ([7]%Z, [2])] = Throw.
Proof. eexists. split; [vm_compute; reflexivity|]. vm_compute. auto 10. Qed.
Example C48_unary_shared_case : exists f, lunary_shared Z [2; 3; 5]%Z 3 2 2 [[0; 1]; [1; 2]] [10; 1]%Z true = Ret f /\
  ft_call (lunary_ft Z 0%Z Z.add Z.mul) f [0] = Ret 0%Z /\ ft_call (lunary_ft Z 0%Z Z.add Z.mul) f [1] = Ret 23%Z /\ ft_call (lunary_ft Z 0%Z Z.add Z.mul) f [2] = Ret 35%Z /\
  lunary_shared Z [2; 3; 5]%Z 3 2 2 [[0; 1]; [1; 2]] [10; 1]%Z false = Throw.
Proof. eexists. split; [vm_compute; reflexivity|]. vm_compute. auto 10. Qed.
Example C48_weighted_sum_case : ft_call (lsum_ft Z 0%Z Z.add Z.mul) (lsum_new Z [2] [3; 4]%Z [1; 0] [mkExplicit [2] [5; 7]%Z; mkExplicit [2] [1; 2]%Z]) [1] = Ret 34%Z.
Proof. vm_compute. reflexivity. Qed.
Example C48_constraints_case : exists s, add_all Z [0; 0]%Z [9; 9]%Z [([0; 1], [1; 1]%Z, (0%Z, 5%Z)); ([1], [2]%Z, (1%Z, 3%Z))] = Ret s /\ wc_numberOfConstraints Z s = 2 /\
  wc_constraintSize Z s 1 = Ret 1 /\ wc_constraintLowerBound Z s 1 = Undef.
Proof. eexists. split; [vm_compute; reflexivity|]. vm_compute. auto. Qed.
