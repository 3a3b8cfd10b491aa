(** C38: operations on factors, accumulation, fixing of variables. *)
From Coq Require Import ZArith Sorted.
From Verif Require Import Base Values ShapeSpec ShapeProofs IndexingModel OperationsModel OperationsProps UtilModel UtilProps MarrayModel
  FactorOpsModel FactorOpsSpec FactorOpsProofs FactorOpsTables FactorOpsInplace FactorOpsAcc FactorOpsIndep.

(** Combination of two factors: unless both are without variables, the result depends on exactly the
    variables of both, and its value at every labeling is the operation applied to the two values. *)
Theorem C38_binary : forall V (v0 : V) nl f g vf vg F G op,
  represents V nl f vf F -> represents V nl g vg G -> vf <> [] \/ vg <> [] ->
  exists t vars, BinaryOperation V v0 op f g vf vg = Ret (t, vars) /\
    (forall v, In v vars <-> In v vf \/ In v vg) /\ factor_is V nl t vars (fun x => op (F x) (G x)).
Proof.
  intros V v0 nl f g vf vg F G op RF RG HN. destruct (binary_spec V v0 nl f g vf vg F G op RF RG HN) as (t & vars & E & HF & HI). eauto.
Qed.
Print Assumptions C38_binary.

(** The same for f op= g, where g is another function or factor, ... *)
Theorem C38_inplace : forall V (v0 : V) nl t g vf vg F G op,
  factor_is V nl t vf F -> represents V nl g vg G -> vf <> [] \/ vg <> [] ->
  exists t' vars, BinaryOperationInplace V v0 op t (fun _ => g) vf vg = Ret (t', vars) /\
    (forall v, In v vars <-> In v vf \/ In v vg) /\ factor_is V nl t' vars (fun x => op (F x) (G x)).
Proof.
  intros V v0 nl t g vf vg F G op RF RG HN. destruct (inplace_other V v0 nl t g vf vg F G op RF RG HN) as (t' & vars & E & HF & HI). eauto.
Qed.
Print Assumptions C38_inplace.

(** ... and for f op= f, where the second operand changes while it is read. *)
Theorem C38_inplace_self : forall V (v0 : V) nl t vars F op, factor_is V nl t vars F -> vars <> [] ->
  exists t', BinaryOperationInplace V v0 op t (t_fn V) vars vars = Ret (t', vars) /\ factor_is V nl t' vars (fun x => op (F x) (F x)).
Proof. intros. apply inplace_self; auto. Qed.
Print Assumptions C38_inplace_self.

(** Element-wise operations: the three routines apply the operation to every value and change nothing else. *)
Theorem C38_unary : forall V (v0 : V) nl op vars F,
  (forall f, represents V nl f vars F -> vars <> [] ->
     exists t, UnaryOperation V v0 op f = Ret t /\ factor_is V nl t vars (fun x => op (F x))) /\
  (forall t, factor_is V nl t vars F ->
     exists t', UnaryOperationInplace V op t = Ret t' /\ factor_is V nl t' vars (fun x => op (F x))) /\
  (forall t, factor_is V nl t vars F ->
     exists t', if_operateUnary V op (mkIF vars t) = Ret (mkIF vars t') /\ factor_is V nl t' vars (fun x => op (F x))) /\
  (forall t op2 b, factor_is V nl t vars F ->
     exists t', if_operateScalar V op2 (mkIF vars t) b = Ret (mkIF vars t') /\ factor_is V nl t' vars (fun x => op2 (F x) b)).
Proof.
  intros V v0 nl op vars F. split; [|split; [|split]].
  - intros f R HN. apply unary_spec; auto.
  - intros t FT. apply unary_inplace_spec; auto.
  - intros t FT. apply operateUnary_spec; auto.
  - intros t op2 b FT. unfold if_operateScalar. apply (operateUnary_spec V nl t vars F (fun a => op2 a b) FT).
Qed.
Print Assumptions C38_unary.

(** accumulate(value): the accumulation of the values at all tuples of labels. *)
Theorem C38_accumulate_all : forall V neutral op3 nl f vars F x, represents V nl f vars F ->
  AccumulateAll V neutral op3 f = Ret (accumulate_values V op3 neutral (values_over V nl vars F x)).
Proof. intros. apply acc_all_spec; auto. Qed.
Print Assumptions C38_accumulate_all.

(** What the accumulation over the variables [acc] of a factor is at the labeling x: every labeling
    which agrees with x on the other variables contributes once. *)
Definition accumulated {V} (op3 : V -> V -> V) (neutral : V) (nl : nat -> nat) (acc : list nat) (F : (nat -> nat) -> V) (x : nat -> nat) : V :=
  match acc with
  | [] => F x
  | _ :: _ => accumulate_values V op3 neutral (values_over V nl acc F x)
  end.

(** accumulate(variables, result) and its in-place form, for a factor with variables: the result
    depends on the variables not accumulated, in their order. *)
Theorem C38_accumulate_some : forall V (v0 neutral : V) op3 zero nl vars viAcc F, vars <> [] ->
  let keep := filter (fun v => negb (existsb (Nat.eqb v) viAcc)) vars in
  let acc := filter (fun v => existsb (Nat.eqb v) viAcc) vars in
  (forall f, represents V nl f vars F ->
     exists t, AccumulateSome V v0 neutral op3 zero f vars viAcc = Ret (t, keep) /\ factor_is V nl t keep (accumulated op3 neutral nl acc F)) /\
  (forall t, factor_is V nl t vars F ->
     exists t', AccumulateSomeInplace V v0 neutral op3 zero t vars viAcc = Ret (t', keep) /\ factor_is V nl t' keep (accumulated op3 neutral nl acc F)).
Proof.
  intros V v0 neutral op3 zero nl vars viAcc F HN keep acc. split.
  - intros f R. apply (acc_some_spec V v0 neutral (fun _ _ => true) op3 zero nl f vars viAcc F R HN).
  - intros t FT. apply (acc_some_inplace_spec V v0 neutral (fun _ _ => true) op3 zero nl t vars viAcc F FT HN).
Qed.
Print Assumptions C38_accumulate_some.

Lemma in_tuples : forall nl vars c, (forall v, In v vars -> 0 < nl v) -> In c (tuples nl vars) <-> in_shape (map nl vars) c.
Proof.
  intros nl vars c P. unfold tuples. rewrite in_map_iff. split.
  - intros (k & <- & _). apply coord_of_in_shape. apply map_positive; auto.
  - intros H. exists (index_of (map nl vars) c). split; [apply coord_of_index; auto|]. apply in_seq. pose proof (index_of_lt _ _ H). lia.
Qed.

(** accumulate(value, states) with the Minimizer or the Maximizer, for a factor with variables and
    without NaN, one of whose values is not the worst possible: the value is the best one, and the
    labels are those of a labeling where it is taken. *)
Definition best_of (better : ext -> ext -> bool) (nl : nat -> nat) (vars : list nat) (F : (nat -> nat) -> ext) (v : ext) (c : list nat) : Prop :=
  (forall y, legal nl vars y -> better (F y) v = false) /\
  exists y, legal nl vars y /\ c = map y vars /\ F y = v.

Lemma best_first_of : forall better nl f vars F x v c, represents ext nl f vars F ->
  best_first better (map (fun c => (F (override x vars c), c)) (tuples nl vars)) v c -> best_of better nl vars F v c.
Proof.
  intros better nl f vars F x v c R [H1 (l1 & l2 & E & _)]. pose proof R as (S & Sh & P & H).
  assert (ND : NoDup vars) by (apply IndexingProofs.sorted_NoDup; auto). split.
  - intros y HY. assert (EY : F y = F (override x vars (map y vars))).
    { apply (represents_ext _ nl f vars F y _ R); auto. apply map_eq_in. symmetry. apply override_in; auto. apply map_length. }
    rewrite EY. apply (H1 (F (override x vars (map y vars)), map y vars)). apply in_map_iff. exists (map y vars). split; auto.
    apply in_tuples; auto. apply map_in_shape; auto.
  - assert (HI : In (v, c) (map (fun c => (F (override x vars c), c)) (tuples nl vars))) by (rewrite E; apply in_app_iff; right; left; auto).
    apply in_map_iff in HI. destruct HI as (c' & Ec & Hc). injection Ec as <- ->. apply in_tuples in Hc; auto.
    exists (override x vars c). split; [apply override_legal; auto|]. split; auto. symmetry. apply override_in; auto.
    apply in_shape_length in Hc. rewrite map_length in Hc. auto.
Qed.

Lemma tuples_nonempty : forall nl vars, (forall v, In v vars -> 0 < nl v) -> tuples nl vars <> [].
Proof.
  intros nl vars P E. pose proof (size_of_pos (map nl vars) (map_positive nl vars P)) as H. unfold tuples in E. apply map_eq_nil in E.
  apply (f_equal (@length nat)) in E. rewrite seq_length in E. cbn in E. lia.
Qed.

Theorem C38_best_value : forall nl f vars F, represents ext nl f vars F -> vars <> [] -> (forall y, legal nl vars y -> F y <> NaN) ->
  ((exists y, legal nl vars y /\ F y <> PInf) ->
   exists v c, AccumulateAllState ext PInf ext_lt (Minimizer_op3 ext ext_lt) f = Ret (v, c) /\ best_of ext_lt nl vars F v c) /\
  ((exists y, legal nl vars y /\ F y <> NInf) ->
   let gt a b := ext_lt b a in
   exists v c, AccumulateAllState ext NInf gt (Maximizer_op3 ext ext_lt) f = Ret (v, c) /\ best_of gt nl vars F v c).
Proof.
  intros nl f vars F R HN HNaN. pose proof R as (S & Sh & P & H). assert (ND : NoDup vars) by (apply IndexingProofs.sorted_NoDup; auto).
  set (l := map (fun c => (F (override (fun _ => 0) vars c), c)) (tuples nl vars)).
  assert (LN : l <> []) by (intros Q; apply map_eq_nil in Q; apply (tuples_nonempty nl vars P Q)).
  assert (NN : forall p, In p l -> fst p <> NaN).
  { intros p Hp. apply in_map_iff in Hp. destruct Hp as (c & <- & Hc). cbn. apply HNaN. apply in_tuples in Hc; auto. apply override_legal; auto. }
  assert (W : forall w, (exists y, legal nl vars y /\ F y <> w) -> exists p, In p l /\ fst p <> w).
  { intros w (y & HY & Ny). exists (F (override (fun _ => 0) vars (map y vars)), map y vars). split.
    - apply in_map_iff. exists (map y vars). split; auto. apply in_tuples; auto. apply map_in_shape; auto.
    - cbn. replace (F (override (fun _ => 0) vars (map y vars))) with (F y); auto.
      apply (represents_ext _ nl f vars F y _ R); auto. apply map_eq_in. symmetry. apply override_in; auto. apply map_length. }
  destruct (C30_accumulation_partial l LN NN) as [(_ & _ & B1) (_ & _ & B2)]. split.
  - intros HE. rewrite (acc_all_state_spec ext PInf ext_lt (Minimizer_op3 ext ext_lt) nl f vars F (fun _ => 0) R HN).
    do 2 eexists. split; [reflexivity|]. eapply best_first_of; [exact R|]. apply B1. auto.
  - intros HE gt. rewrite (acc_all_state_spec ext NInf gt (Maximizer_op3 ext ext_lt) nl f vars F (fun _ => 0) R HN).
    do 2 eexists. split; [reflexivity|]. eapply best_first_of; [exact R|]. apply B2. auto.
Qed.
Print Assumptions C38_best_value.

(** subtractOffset() for finite values: there is a labeling of least value, and its value is
    subtracted from all values. *)
Theorem C38_subtractOffset : forall nl t vars (F : (nat -> nat) -> Z), factor_is ext nl t vars (fun x => Fin (F x)) ->
  exists t' x0, legal nl vars x0 /\ (forall x, legal nl vars x -> (F x0 <= F x)%Z) /\
    if_subtractOffset ext PInf (Fin 0) ext_lt (Minimizer_op3 ext ext_lt) ext_sub (mkIF vars t) = Ret (mkIF vars t') /\
    factor_is ext nl t' vars (fun x => Fin (F x - F x0)).
Proof.
  intros nl t vars F FT. pose proof FT as [R LD]. pose proof R as (S & Sh & P & H). unfold if_subtractOffset. cbn [if_vi if_fn].
  destruct (Nat.eqb_spec (length vars) 0) as [Z|Z].
  - destruct vars; [|discriminate]. exists (mkTable [] [Fin 0]), (fun _ => 0). cbn [t_fn f_shape] in Sh.
    assert (EX : forall x y, F x = F y).
    { intros x y. assert (Fin (F x) = Fin (F y)) as [= E]; auto. apply (represents_ext ext nl _ [] (fun x => Fin (F x)) x y R); intros v []. }
    destruct t as [sh d]. cbn [t_shape t_data] in *. subst sh. cbn in LD. destruct d as [|a [|b d]]; try discriminate.
    split; [intros v []|]. split; [intros x _; rewrite (EX (fun _ => 0) x); lia|]. split; [reflexivity|].
    apply factor_scalar. intros x. f_equal. rewrite (EX x (fun _ => 0)). lia.
  - destruct (C38_best_value nl (t_fn ext t) vars (fun x => Fin (F x)) R) as [B _].
    { intros E. subst. contradiction. }
    { intros; discriminate. }
    destruct B as (v & c & E & B1 & (x0 & HL & Ec & Ev)).
    { exists (lab nl vars 0). split; [|discriminate]. apply lab_legal; auto. apply IndexingProofs.sorted_NoDup; auto. }
    rewrite E. cbn [bind]. destruct (operateUnary_spec ext nl t vars (fun x => Fin (F x)) (fun a => ext_sub a v) FT) as (t' & E' & F').
    exists t', x0. split; auto. split.
    { intros x HX. specialize (B1 x HX). rewrite <- Ev in B1. cbn in B1. apply Z.ltb_ge in B1. auto. }
    split; [exact E'|]. rewrite <- Ev in F'. exact F'.
Qed.
Print Assumptions C38_subtractOffset.

(** fixVariables(indices, labels): the fixed variables leave the factor, and its value at every
    labeling is the old one with the fixed variables labeled as given. Variables which the factor
    does not have are ignored. *)
Theorem C38_fixVariables : forall V (v0 : V) nl t vars F indices labels,
  factor_is V nl t vars F -> StronglySorted lt indices -> length labels = length indices ->
  (forall j, j < length indices -> In (nth j indices 0) vars -> nth j labels 0 < nl (nth j indices 0)) ->
  let rest := filter (fun v => negb (existsb (Nat.eqb v) indices)) vars in
  exists t', if_fixVariables V v0 (mkIF vars t) indices labels = Ret (mkIF rest t') /\
    factor_is V nl t' rest (fun x => F (override x indices labels)).
Proof. intros. apply fix_spec; auto. Qed.
Print Assumptions C38_fixVariables.

(** Independent factors built from a factor of a model (constructor and assignment), from another
    independent factor, and from a value. *)
Theorem C38_construction : forall V (v0 : V) nl vars,
  (forall f F, represents V nl f vars F -> exists t, if_of_factor V v0 f vars = Ret (mkIF vars t) /\
     if_assign_factor V v0 f vars = Ret (mkIF vars t) /\ factor_is V nl t vars F) /\
  (forall t F, factor_is V nl t vars F -> exists t', if_copy V (mkIF vars t) = Ret (mkIF vars t') /\ factor_is V nl t' vars F) /\
  (forall value, StronglySorted lt vars -> (forall v, In v vars -> 0 < nl v) -> vars <> [] ->
     exists t, if_fill V v0 nl vars value = Ret (mkIF vars t) /\ factor_is V nl t vars (fun _ => value)) /\
  (forall value, exists t, if_constant V value = mkIF [] t /\ factor_is V nl t [] (fun _ => value)).
Proof.
  intros V v0 nl vars. split; [|split; [|split]].
  - intros f F R. apply of_factor_spec; auto.
  - intros t F FT. apply copy_spec; auto.
  - intros value S P HN. apply fill_spec; auto.
  - intros value. eexists. split; [reflexivity|]. apply factor_scalar. auto.
Qed.
Print Assumptions C38_construction.

(** ** What fails *)

(** For two factors without variables no result is defined, out of place and in place; neither is
    the out-of-place element-wise operation on a factor without variables (the array is resized to
    no entries). *)
Theorem C38_scalar_refuted : forall V (v0 : V) op op1 a b,
  BinaryOperation V v0 op (t_fn V (t_scalar V a)) (t_fn V (t_scalar V b)) [] [] = Undef /\
  BinaryOperationInplace V v0 op (t_scalar V a) (fun _ => t_fn V (t_scalar V b)) [] [] = Undef /\
  UnaryOperation V v0 op1 (t_fn V (t_scalar V a)) = Undef.
Proof. intros. split; [reflexivity|]. split; reflexivity. Qed.
Print Assumptions C38_scalar_refuted.

(** The same resize in the model of the arrays. *)
Lemma resize_scalar_undef : forall (x : nat),
  (let '(a, m) := marray_scalar x LastMajor [] in resize 0 0 a [0] 0 m) = Undef.
Proof. intros. reflexivity. Qed.

(** Accumulating over variables in a factor without variables accumulates the constant 0.0 instead
    of its value; the in-place form writes through a null pointer. *)
Theorem C38_accumulate_scalar_refuted : exists a viAcc,
  AccumulateSome Z 0%Z 0%Z Z.add 0%Z (t_fn Z (t_scalar Z a)) [] viAcc = Ret (t_scalar Z 0%Z, []) /\
  accumulated Z.add 0%Z (fun _ => 2) [] (fun _ => a) (fun _ => 0) = 7%Z /\
  AccumulateSomeInplace Z 0%Z 0%Z Z.add 0%Z (t_scalar Z a) [] viAcc = Undef.
Proof. exists 7%Z, [1]. split; [reflexivity|]. split; reflexivity. Qed.
Print Assumptions C38_accumulate_scalar_refuted.

(** f.operateBinary(f, g, op) loses f: its variables and its values. *)
Theorem C38_alias_refuted : exists nl t g vf vg F G,
  factor_is Z nl t vf F /\ represents Z nl g vg G /\
  exists t', BinaryOperation_aliased Z 0%Z Z.add g vg = Ret (t', vg) /\ ~ (forall v, In v vg <-> In v vf \/ In v vg) /\
    t_data t' = [5%Z; 6%Z].
Proof.
  exists (fun _ => 2), (mkTable [2] [10; 20]%Z), (t_fn Z (mkTable [2] [5; 6]%Z)), [0], [1], (fun x => match x 0 with 0 => 10%Z | _ => 20%Z end),
    (fun x => match x 1 with 0 => 5%Z | _ => 6%Z end).
  split; [|split].
  - split; [|reflexivity]. split; [repeat constructor|]. split; [reflexivity|]. split; [intros; lia|]. intros x rest HX.
    specialize (HX 0 (or_introl eq_refl)). cbn -[rd]. destruct (x 0) as [|[|k]]; [reflexivity|reflexivity|lia].
  - split; [repeat constructor|]. split; [reflexivity|]. split; [intros; lia|]. intros x rest HX.
    specialize (HX 1 (or_introl eq_refl)). cbn -[rd]. destruct (x 1) as [|[|k]]; [reflexivity|reflexivity|lia].
  - eexists. split; [reflexivity|]. split; [|reflexivity]. intros K. destruct (proj2 (K 0)) as [|[]]; [left; left; auto|discriminate].
Qed.
Print Assumptions C38_alias_refuted.

(** An independent factor constructed for no variables and a value does not have that value. *)
Theorem C38_fill_scalar_refuted : exists nl value, if_fill Z 0%Z nl [] value = Ret (mkIF [] (t_scalar Z 0%Z)) /\ value <> 0%Z.
Proof. exists (fun _ => 2), 3%Z. split; [reflexivity|discriminate]. Qed.
Print Assumptions C38_fill_scalar_refuted.

(** ** A case: a factor of variables 0 and 2 (two and three labels) and one of variable 2 *)
Definition ex_nl (v : nat) : nat := match v with 0 => 2 | _ => 3 end.
Definition ex_F (x : nat -> nat) : Z := (Z.of_nat (x 0%nat) * 10 + Z.of_nat (x 2%nat))%Z.
Definition ex_G (x : nat -> nat) : Z := (Z.of_nat (x 2%nat) * 100)%Z.
Definition ex_t : table Z := mkTable [2; 3] [0; 10; 1; 11; 2; 12]%Z.
Definition ex_u : table Z := mkTable [3] [0; 100; 200]%Z.
Example C38_case : factor_is Z ex_nl ex_t [0; 2] ex_F /\ factor_is Z ex_nl ex_u [2] ex_G /\
  BinaryOperation Z 0%Z Z.add (t_fn Z ex_t) (t_fn Z ex_u) [0; 2] [2] = Ret (mkTable [2; 3] [0; 10; 101; 111; 202; 212]%Z, [0; 2]) /\
  AccumulateSome Z 0%Z 0%Z Z.add 0%Z (t_fn Z ex_t) [0; 2] [0] = Ret (mkTable [3] [10; 12; 14]%Z, [2]) /\
  if_fixVariables Z 0%Z (mkIF [0; 2] ex_t) [1; 2] [7; 1] = Ret (mkIF [0] (mkTable [2] [1; 11]%Z)).
Proof.
  split; [|split; [|split; [|split]]]; try reflexivity.
  - split; [|reflexivity]. split; [repeat constructor|]. split; [reflexivity|]. split; [intros v [<-|[<-|[]]]; cbn; lia|]. intros x rest HX.
    pose proof (HX 0 (or_introl eq_refl)) as H0. pose proof (HX 2 (or_intror (or_introl eq_refl))) as H2. cbn [ex_nl] in H0, H2. unfold ex_F.
    cbn -[rd Z.of_nat Z.mul Z.add]. destruct (x 0) as [|[|k]]; [| |lia]; destruct (x 2) as [|[|[|k]]]; try lia; reflexivity.
  - split; [|reflexivity]. split; [repeat constructor|]. split; [reflexivity|]. split; [intros v [<-|[]]; cbn; lia|]. intros x rest HX.
    pose proof (HX 2 (or_introl eq_refl)) as H2. cbn [ex_nl] in H2. unfold ex_G. cbn -[rd Z.of_nat Z.mul Z.add].
    destruct (x 2) as [|[|[|k]]]; try lia; reflexivity.
Qed.
Definition ex_e : table ext := mkTable [2] [Fin 4; Fin 1]%Z.
Example C38_case_ext : factor_is ext ex_nl ex_e [0] (fun x => Fin (4 - 3 * Z.of_nat (x 0%nat))) /\
  AccumulateAllState ext PInf ext_lt (Minimizer_op3 ext ext_lt) (t_fn ext ex_e) = Ret (Fin 1, [1]) /\
  if_subtractOffset ext PInf (Fin 0) ext_lt (Minimizer_op3 ext ext_lt) ext_sub (mkIF [0] ex_e) = Ret (mkIF [0] (mkTable [2] [Fin 3; Fin 0])).
Proof.
  split; [|split; reflexivity]. split; [|reflexivity]. split; [repeat constructor|]. split; [reflexivity|]. split; [intros v [<-|[]]; cbn; lia|].
  intros x rest HX. pose proof (HX 0 (or_introl eq_refl)) as H0. cbn [ex_nl] in H0. cbn -[rd Z.of_nat Z.mul Z.sub].
  destruct (x 0) as [|[|k]]; try lia; reflexivity.
Qed.
