(** C38, continued: normalization of a factor. *)
From Coq Require Import ZArith Sorted QArith Qcanon.
From Verif Require Import Base Values ShapeSpec ShapeProofs IndexingModel OperationsModel OperationsProps UtilModel UtilProps MarrayModel
  FactorOpsModel FactorOpsSpec FactorOpsProofs FactorOpsTables FactorOpsInplace FactorOpsAcc FactorOpsIndep FactorOpsProps.
Open Scope nat_scope.

(** C38: normalize applies the inverse operation with the accumulated value to every value, unless the operation is the product and
    that value is too small: then nothing changes. *)
Theorem C38_normalize : forall V mult small (neutral : V) op3 inv nl t vars F, factor_is V nl t vars F ->
  exists t' total, (forall x, total = accumulate_values V op3 neutral (values_over V nl vars F x)) /\
    if_normalize V mult small neutral op3 inv (mkIF vars t) = Ret (mkIF vars t') /\
    factor_is V nl t' vars (fun x => if mult && small total then F x else inv (F x) total).
Proof.
  intros V mult small neutral op3 inv nl t vars F FT. unfold if_normalize. cbn [if_fn].
  set (A := fun x => accumulate_values V op3 neutral (values_over V nl vars F x)).
  assert (E : forall x, AccumulateAll V neutral op3 (t_fn V t) = Ret (A x)) by (intros; apply C38_accumulate_all; apply FT).
  rewrite (E (fun _ => 0)). cbn [bind]. destruct (mult && small (A (fun _ => 0))) eqn:Es.
  - exists t, (A (fun _ => 0)). rewrite Es. split; auto. intros x. pose proof (E x) as E1. rewrite (E (fun _ => 0)) in E1. injection E1 as E1. exact E1.
  - destruct (proj2 (proj2 (proj2 (C38_unary V neutral nl (fun a => a) vars F))) t inv (A (fun _ => 0)) FT) as (t' & Et & Ft).
    exists t', (A (fun _ => 0)). rewrite Es. split; auto. intros x. pose proof (E x) as E1. rewrite (E (fun _ => 0)) in E1. injection E1 as E1. exact E1.
Qed.
Print Assumptions C38_normalize.

(** ** Sums of products: afterwards the values sum up to one, exact rational numbers *)
Definition sumQ (l : list Qc) : Qc := accumulate_values Qc Qcplus 0%Qc l.
Lemma sumQ_from : forall l a, fold_left (fun r v => (v + r)%Qc) l a = (a + sumQ l)%Qc.
Proof.
  induction l as [|v l IH]; intros a; unfold sumQ, accumulate_values; cbn [fold_left].
  - rewrite Qcplus_0_r. auto.
  - rewrite (IH (v + a)%Qc), (IH (v + 0)%Qc). rewrite Qcplus_0_r, (Qcplus_comm v a), Qcplus_assoc. auto.
Qed.
Lemma sumQ_div : forall l c, c <> 0%Qc -> sumQ (map (fun v => (v / c)%Qc) l) = (sumQ l / c)%Qc.
Proof.
  intros l c Hc. induction l as [|v l IH].
  - cbn. unfold Qcdiv. rewrite Qcmult_0_l. auto.
  - unfold sumQ, accumulate_values in *. cbn [fold_left map]. rewrite !sumQ_from. unfold sumQ, accumulate_values. rewrite IH. rewrite !Qcplus_0_r. unfold Qcdiv. rewrite Qcmult_plus_distr_l. auto.
Qed.
Theorem C38_normalize_sum : forall nl t vars F eps x, factor_is Qc nl t vars F -> (0 <= eps)%Qc ->
  (eps < sumQ (values_over Qc nl vars F x))%Qc ->
  exists t' G, if_normalize Qc true (fun v => if Qclt_le_dec eps v then false else true) 0%Qc Qcplus Qcdiv (mkIF vars t) = Ret (mkIF vars t') /\
    factor_is Qc nl t' vars G /\ (forall y, G y * sumQ (values_over Qc nl vars F x) = F y)%Qc /\ forall y, sumQ (values_over Qc nl vars G y) = 1%Qc.
Proof.
  intros nl t vars F eps x FT E0 HS.
  destruct (C38_normalize Qc true (fun v => if Qclt_le_dec eps v then false else true) 0%Qc Qcplus Qcdiv nl t vars F FT) as (t' & total & A & E & FG).
  assert (Et : total = sumQ (values_over Qc nl vars F x)) by apply A.
  assert (NZ : total <> 0%Qc). { intros Z. rewrite <- Et, Z in HS. apply (Qclt_not_le _ _ HS). auto. }
  assert (SM : (if Qclt_le_dec eps total then false else true) = false).
  { destruct (Qclt_le_dec eps total) as [L|L]; auto. rewrite Et in L. exfalso. apply (Qclt_not_le _ _ HS L). }
  rewrite SM in FG. cbn [andb] in FG. exists t', (fun y => F y / total)%Qc. split; auto. split; auto. split.
  - intros y. rewrite <- Et. unfold Qcdiv. rewrite <- Qcmult_assoc, (Qcmult_comm (/ total)), Qcmult_inv_r, Qcmult_1_r; auto.
  - intros y. assert (M : values_over Qc nl vars (fun y => F y / total)%Qc y = map (fun v => v / total)%Qc (values_over Qc nl vars F y)) by (unfold values_over; rewrite map_map; auto).
    rewrite M, sumQ_div by auto. specialize (A y). unfold sumQ. rewrite <- A. unfold Qcdiv. apply Qcmult_inv_r. auto.
Qed.
Print Assumptions C38_normalize_sum.

(** ** Minima of sums: afterwards the least value is zero *)
Theorem C38_normalize_min : forall nl t vars (F : (nat -> nat) -> Z) small, factor_is ext nl t vars (fun x => Fin (F x)) ->
  exists t' x0, legal nl vars x0 /\ (forall x, legal nl vars x -> (F x0 <= F x)%Z) /\
    if_normalize ext false small PInf (Minimizer_op3 ext ext_lt) ext_sub (mkIF vars t) = Ret (mkIF vars t') /\
    factor_is ext nl t' vars (fun x => Fin (F x - F x0)).
Proof.
  intros nl t vars F small FT. pose proof FT as [R _]. pose proof R as (S & Sh & P & H).
  destruct (C38_normalize ext false small PInf (Minimizer_op3 ext ext_lt) ext_sub nl t vars _ FT) as (t' & total & A & E & FG). cbn [andb] in FG.
  assert (ND : NoDup vars) by (apply IndexingProofs.sorted_NoDup; auto).
  assert (X : forall l a, exists m, fold_left (fun r v => Minimizer_op3 ext ext_lt v r) (map Fin l) (Fin a) = Fin m /\ (m = a \/ In m l) /\ (m <= a)%Z /\ forall b, In b l -> (m <= b)%Z).
  { induction l as [|b l IH]; intros a; cbn [map fold_left]; [exists a; repeat split; auto; [lia|intros b []]|].
    unfold Minimizer_op3 at 2. cbn [ext_lt]. destruct (Z.ltb_spec b a).
    - destruct (IH b) as (m & E1 & [->|I1] & L1 & L2); exists m || exists b; (split; [exact E1|]); (split; [right; cbn; auto|]); (split; [lia|]); intros c [<-|Hc]; try lia; auto.
    - destruct (IH a) as (m & E1 & I1 & L1 & L2); exists m. split; [exact E1|]. split; [destruct I1; [left|right; right]; auto|]. split; [lia|]. intros c [<-|Hc]; [lia|auto]. }
  set (l := map (fun c => F (override (fun _ => 0) vars c)) (tuples nl vars)).
  assert (EL : values_over ext nl vars (fun x => Fin (F x)) (fun _ => 0) = map Fin l) by (unfold values_over, l; rewrite map_map; auto).
  assert (NE : l <> []) by (intros Q; apply map_eq_nil in Q; apply (tuples_nonempty nl vars P Q)).
  assert (M : exists m, total = Fin m /\ In m l /\ forall b, In b l -> (m <= b)%Z).
  { rewrite (A (fun _ => 0)), EL. destruct l as [|b l']; [congruence|]. unfold accumulate_values. cbn [map fold_left].
    assert (Q : Minimizer_op3 ext ext_lt (Fin b) PInf = Fin b) by reflexivity. rewrite Q. destruct (X l' b) as (m & E1 & I1 & L1 & L2). exists m. split; auto.
    split; [destruct I1; [left|right]; auto|]. intros c [<-|Hc]; auto. }
  destruct M as (m & -> & Im & Lm). unfold l in Im. apply in_map_iff in Im as (c & Ec & Hc). apply in_tuples in Hc; auto.
  exists t', (override (fun _ => 0) vars c). split; [apply override_legal; auto|]. split.
  - intros x Hx. rewrite Ec. assert (EX : Fin (F x) = Fin (F (override (fun _ => 0) vars (map x vars)))).
    { apply (represents_ext _ nl (t_fn ext t) vars (fun x => Fin (F x)) x _ R); auto. apply map_eq_in. symmetry. apply override_in; auto. apply map_length. }
    injection EX as ->. apply Lm. unfold l. apply in_map_iff. exists (map x vars). split; auto. apply in_tuples; auto. apply map_in_shape; auto.
  - split; auto. rewrite Ec. exact FG.
Qed.
Print Assumptions C38_normalize_min.

(** ** Cases *)
Example C38_normalize_case : if_normalize ext false (fun _ => false) PInf (Minimizer_op3 ext ext_lt) ext_sub (mkIF [0] ex_e) = Ret (mkIF [0] (mkTable [2] [Fin 3; Fin 0])).
Proof. reflexivity. Qed.
Definition ex_Q (x : nat -> nat) : Qc := match x 0 with 0 => Q2Qc (1 # 2) | _ => Q2Qc (3 # 2) end.
Definition ex_q : table Qc := mkTable [2] [Q2Qc (1 # 2); Q2Qc (3 # 2)].
Example C38_normalize_case_sum : factor_is Qc (fun _ => 2) ex_q [0] ex_Q /\
  Qclt (Q2Qc (1 # 100000)) (sumQ (values_over Qc (fun _ => 2) [0] ex_Q (fun _ => 0))) /\
  if_normalize Qc true (fun v => if Qclt_le_dec (Q2Qc (1 # 100000)) v then false else true) 0%Qc Qcplus Qcdiv (mkIF [0] ex_q) = Ret (mkIF [0] (mkTable [2] [Q2Qc (1 # 4); Q2Qc (3 # 4)])).
Proof.
  split; [|split].
  - split; [|reflexivity]. split; [repeat constructor|]. split; [reflexivity|]. split; [intros v [<-|[]]; cbn; lia|].
    intros x rest HX. pose proof (HX 0 (or_introl eq_refl)) as H0. unfold ex_Q. cbn -[rd Q2Qc]. destruct (x 0) as [|[|k]]; try lia; reflexivity.
  - vm_compute. reflexivity.
  - unfold if_normalize. vm_compute AccumulateAll. cbn [bind].
    destruct (Qclt_le_dec _ _) as [L|L]; [|exfalso; vm_compute in L; apply L; reflexivity]. cbn [andb]. unfold if_operateScalar, if_operateUnary. cbn -[rd Qcdiv Q2Qc].
    reflexivity.
Qed.
