(** Proofs about CombiLP: the cycles. *)
From Verif Require Import Base Values GmView GmViewSpec GmViewProofs ShapeSpec ShapeProofs SubmodelModel ManipulatorModel RedSpec CombiModel CombiSpec CombiProofs CombiCycle.

(** ** The number of masked variables *)
Definition masked (m : list bool) : nat := length (filter (fun b => b) m).
Lemma masked_le : forall m, masked m <= length m.
Proof. unfold masked. intros m. induction m as [|[] m IH]; cbn; lia. Qed.
Lemma masked_mono : forall m m', length m' = length m -> (forall v, nth v m false = true -> nth v m' false = true) -> masked m <= masked m'.
Proof.
  unfold masked. induction m as [|b m IH]; intros [|b' m'] L H; try discriminate; auto. specialize (IH m' ltac:(cbn in L; lia) (fun v => H (S v))). pose proof (H 0) as H0. cbn in H0 |- *.
  destruct b; [rewrite H0 by auto; cbn; lia|destruct b'; cbn; lia].
Qed.
Lemma masked_strict : forall m m' w, length m' = length m -> (forall v, nth v m false = true -> nth v m' false = true) -> nth w m false = false -> nth w m' false = true -> masked m < masked m'.
Proof.
  unfold masked. induction m as [|b m IH]; intros [|b' m'] w L H A B; try discriminate; [destruct w; discriminate|].
  destruct w as [|w].
  - cbn in A, B. subst b b'. cbn. pose proof (masked_mono m m' ltac:(cbn in L; lia) (fun v => H (S v))) as M. unfold masked in M. lia.
  - specialize (IH m' w ltac:(cbn in L; lia) (fun v => H (S v)) A B). pose proof (H 0) as H0. cbn in H0 |- *. destruct b; [rewrite H0 by auto; cbn; lia|destruct b'; cbn; lia].
Qed.
Lemma masked_all : forall m, masked m = length m -> forall v, v < length m -> nth v m false = true.
Proof.
  unfold masked. induction m as [|b m IH]; intros E v Hv; cbn in *; [lia|]. pose proof (masked_le m) as L. unfold masked in L. destruct b; cbn in E; [|lia]. destruct v; auto. apply IH; lia.
Qed.

Section Loop.
Variable T : Type.
Variables (OP : oper T) (ACC : accum T).
Variable fin : T -> Prop.
Hypothesis OL : op_laws fin OP.
Hypothesis AL : acc_laws fin OP ACC.
Variable g : gmv T.
Hypothesis W : wf_gmv g.
Notation n := (length (v_labels g)).
Variable ilp : nat -> nat -> subgm T -> option (list nat).
Hypothesis EX : ilp_exact fin OP ACC ilp.
Variable par : clp.
Variable repa : nat -> list bool -> gmv T.
Variable stop : nat -> bool.
Variables (agree : list bool) (lp : list nat).
Hypothesis LA : length agree = n.
Hypothesis LP : labeling g lp.
Definition fine (gr : gmv T) : Prop := reparametrizes fin OP g gr /\ locally_best ACC gr agree lp.
Hypothesis RE : forall i m, length m = n -> fine (repa i m).
Notation on m v := (nth v m false = true).

Lemma same_vars : forall gr : gmv T, map fst (v_factors gr) = map fst (v_factors g) -> forall fc, In fc (v_factors gr) -> exists fc', In fc' (v_factors g) /\ fst fc' = fst fc.
Proof. intros gr E fc I. apply (in_map fst) in I. rewrite E in I. apply in_map_iff in I. destruct I as (fc' & E' & I). eauto. Qed.
Lemma same_vars2 : forall gr : gmv T, map fst (v_factors gr) = map fst (v_factors g) -> forall fc, In fc (v_factors g) -> exists fc', In fc' (v_factors gr) /\ fst fc' = fst fc.
Proof. intros gr E fc I. apply (in_map fst) in I. rewrite <- E in I. apply in_map_iff in I. destruct I as (fc' & E' & I). eauto. Qed.
Lemma repa_wf : forall gr, reparametrizes fin OP g gr -> wf_gmv gr.
Proof.
  intros gr (EL & EF & _). destruct W as [F P]. split; [|rewrite EL; auto]. rewrite EL. apply Forall_forall. intros fc I. destruct (same_vars gr EF fc I) as (fc' & I' & <-). rewrite Forall_forall in F. apply F. auto.
Qed.
Lemma repa_touch : forall gr, reparametrizes fin OP g gr -> forall v w, touch T gr v w <-> touch T g v w.
Proof.
  intros gr (_ & EF & _) v w. split; intros (fc & I & H).
  - destruct (same_vars gr EF fc I) as (fc' & I' & E). exists fc'. rewrite E. auto.
  - destruct (same_vars2 gr EF fc I) as (fc' & I' & E). exists fc'. rewrite E. auto.
Qed.
Lemma repa_optimal : forall gr x, reparametrizes fin OP g gr -> optimal OP ACC gr x -> optimal OP ACC g x.
Proof.
  intros gr x (EL & EF & FG & ET) [LX H]. unfold labeling in *. rewrite EL in LX, H. split; auto. intros y LY. rewrite <- !ET by auto. auto.
Qed.

(** Every factor with a variable outside of the mask has only agreed variables. *)
Definition covers (mask : list bool) : Prop :=
  forall fc, In fc (v_factors g) -> (exists v, In v (fst fc) /\ nth v mask false = false) -> Forall (fun v => on agree v) (fst fc).
Lemma covers_mono : forall m m', covers m -> (forall v, on m v -> on m' v) -> covers m'.
Proof. intros m m' C H fc I (v & Iv & B). apply C; auto. exists v. split; auto. destruct (nth v m false) eqn:E; auto. rewrite (H v E) in B. discriminate. Qed.
Lemma nth_negb : forall m v, v < length m -> nth v (map negb m) false = negb (nth v m false).
Proof. intros m v H. rewrite (nth_indep (map negb m) false (negb false)) by (rewrite map_length; auto). apply map_nth. Qed.
Lemma covers_init : forall mask, length mask = n -> (forall w, on mask w <-> on (map negb agree) w \/ exists v, on (map negb agree) v /\ touch T g v w) -> covers mask.
Proof.
  intros mask LM H fc I (u & Iu & Bu). pose proof (vis_lt T g W fc I) as F. rewrite Forall_forall in F |- *. intros v Iv. destruct (nth v agree false) eqn:E; auto. exfalso.
  assert (N : on (map negb agree) v) by (rewrite nth_negb by (rewrite LA; auto); rewrite E; auto).
  assert (on mask u); [|congruence]. apply H. destruct (Nat.eq_dec u v) as [->|D]; [left; auto|]. right. exists v. split; auto. exists fc. split; auto. split; auto.
  destruct (fst fc) as [|a [|b r]]; [destruct Iu| |cbn; lia]. destruct Iu as [->|[]]. destruct Iv as [->|[]]. congruence.
Qed.

Definition ready (i : nat) (gm : gmv T) : Prop := cp_single par = true -> i <> 0 -> fine gm.
Lemma loop_ok : forall k i mask gm, length mask = n -> covers mask -> ready i gm ->
  exists r, base_loop T OP g ilp par repa stop k i mask lp gm = Ret r /\
    (forall x v, r = BSolved x v -> optimal OP ACC g x /\ v = total OP g x) /\
    (ilp_complete fin OP ilp -> (forall j, stop j = false) -> 0 < masked mask -> n < k + masked mask -> exists x v, r = BSolved x v) /\
    (r = BFailed -> ~ ilp_complete fin OP ilp).
Proof.
  intros k. induction k as [|k IH]; intros i mask gm LM CV RD; cbn [base_loop].
  { exists BTimeout. split; auto. split; [discriminate|]. split; [|discriminate]. intros _ _ _ L. pose proof (masked_le mask). lia. }
  destruct (stop (S i)) eqn:ST. { exists BTimeout. split; auto. split; [discriminate|]. split; [|discriminate]. intros _ NS. rewrite NS in ST. discriminate. }
  destruct (boundary_ok T g W mask LM) as (bm & EB & LB & HB). rewrite EB. cbn [bind].
  set (gr := if cp_single par then if i =? 0 then repa i (repeat true (length mask)) else gm else repa i mask).
  assert (FI : fine gr).
  { unfold gr. destruct (cp_single par) eqn:SG; [|apply RE; auto]. destruct (Nat.eqb_spec i 0) as [->|NZ]; [apply RE; rewrite repeat_length; auto|apply RD; auto]. }
  assert (RD' : ready (S i) gr) by (intros _ _; exact FI). destruct FI as [RP LO]. pose proof (repa_wf gr RP) as WR. destruct RP as (EL & EF & FG & ET).
  assert (RP : reparametrizes fin OP g gr) by (repeat split; auto).
  assert (LM' : length mask = length (v_labels gr)) by (rewrite EL; auto). assert (LP' : labeling gr lp) by (unfold labeling; rewrite EL; auto).
  destruct (build_ok T OP fin OL gr WR FG mask lp LM' LP') as (m & EM & IM). rewrite EM. cbn [bind].
  destruct (ilp_subs T ilp i 0 (a_subs m)) as [ys|] eqn:EY.
  2: { exists BFailed. split; auto. split; [discriminate|]. assert (~ ilp_complete fin OP ilp) by (intros CO; apply (ilp_subs_complete T OP fin ilp CO i (a_subs m) 0 (subs_usable T OP fin OL gr WR mask lp LM' LP' m IM)); auto). split; [intros; contradiction|auto]. }
  destruct (cycle_ok T OP ACC fin OL AL gr WR mask lp LM' LP' ilp EX m i ys IM EY) as (x & E1 & LX & OX & BX). rewrite E1. cbn [bind].
  assert (LXn : length x = n) by (rewrite <- EL; apply (in_shape_length _ _ LX)). assert (LPn : length lp = n) by (apply (in_shape_length _ _ LP)).
  destruct (matching_ok T g lp x bm LB LPn LXn) as (res & ER & HR). rewrite ER. cbn [bind]. destruct res as [|v0 res0] eqn:RS.
  - rewrite v_evaluate_total by auto. cbn [bind]. exists (BSolved x (total OP g x)). split; auto. split; [|split; [eauto|discriminate]]. intros x' v [= <- <-]. split; auto.
    apply (repa_optimal gr); auto. apply (solved_optimal T OP ACC fin OL AL gr WR FG mask lp LM' LP'); auto.
    + intros fc I U. apply LO; auto. destruct (same_vars gr EF fc I) as (fc' & I' & E). rewrite <- E in U |- *. apply CV; auto.
    + intros v MV (w & TW & BW). destruct (Nat.eq_dec (nth v lp 0) (nth v x 0)) as [E|D]; auto. exfalso. apply (HR v). split; auto. apply HB. split; auto. exists w. split; auto. apply (repa_touch gr); auto.
  - rewrite <- RS in *. destruct (dilvars_ok T gr WR res mask LM') as (mask' & ED & LM2 & HM). rewrite ED. cbn [bind].
    assert (INC : forall v, on mask v -> on mask' v) by (intros v O; apply HM; auto).
    destruct (IH (S i) mask' gr) as (r & E & H1 & H2 & H3); [congruence|eapply covers_mono; eauto|auto|]. exists r. split; auto. split; auto. split; auto. intros CO NS PM LK. apply H2; auto; [pose proof (masked_mono mask mask' ltac:(congruence) INC); lia|].
    assert (IV : In v0 res) by (rewrite RS; left; auto). pose proof (proj1 (HR v0) IV) as [OB _]. destruct (proj1 (HB v0) OB) as [OM (w & TW & BW)].
    assert (masked mask < masked mask'). { apply (masked_strict mask mask' w); [congruence|auto|auto|]. apply HM. right. exists v0. split; auto. apply (repa_touch gr); auto. } lia.
Qed.
Lemma infer_ok : forall L, lp_agree L = agree -> lp_labeling L = lp -> exists c, cl_infer T OP g ilp par repa stop L = Ret c /\
  (c = mkCl (lp_arg L) (lp_value L) (lp_bound L) \/ optimal OP ACC g (cl_labeling c) /\ cl_value c = total OP g (cl_labeling c) /\ cl_bound c = cl_value c) /\
  (forallb (fun b => b) agree = false -> n <= cp_cycles par -> ilp_complete fin OP ilp -> (forall j, stop j = false) ->
   optimal OP ACC g (cl_labeling c) /\ cl_value c = total OP g (cl_labeling c) /\ cl_bound c = cl_value c).
Proof.
  intros L E1 E2. unfold cl_infer. rewrite E1, E2. destruct (stop 0) eqn:S0; [exists (mkCl (lp_arg L) (lp_value L) (lp_bound L)); split; [auto|split; [auto|intros _ _ _ NS; rewrite NS in S0; discriminate]]|].
  destruct (forallb (fun b => b) agree) eqn:AG; [exists (mkCl (lp_arg L) (lp_value L) (lp_bound L)); split; [auto|split; [auto|discriminate]]|].
  assert (LN : length (map negb agree) = n) by (rewrite map_length; auto). destruct (dilmask_ok T g W _ LN) as (mask & ED & LM & HM). rewrite ED. cbn [bind].
  destruct (loop_ok (cp_cycles par) 0 mask (mkGmv [] []) LM (covers_init mask LM HM)) as (r & E & H1 & H2 & H3). { intros _ H. contradiction. }
  rewrite E. cbn [bind].
  assert (EXF : exists v, v < n /\ nth v agree false = false).
  { clear - AG LA. rewrite <- LA. clear LA. induction agree as [|b l IH]; [discriminate|]. destruct b; cbn in AG; [destruct (IH AG) as (v & Hv & B); exists (S v); cbn; split; auto; lia|exists 0; cbn; split; auto; lia]. }
  assert (PM : 0 < masked mask).
  { destruct EXF as (v & Hv & B). assert (O : on mask v) by (apply HM; left; rewrite nth_negb by (rewrite LA; auto); rewrite B; auto). pose proof (masked_strict (repeat false n) mask v) as MS. rewrite repeat_length in MS.
    specialize (MS LM). assert (forall u, nth u (repeat false n) false = false) by (intros; apply nth_repeat). assert (masked (repeat false n) < masked mask); [|lia]. apply MS; auto. intros u B'. rewrite H in B'. discriminate. }
  destruct r as [x v| |].
  - destruct (H1 x v eq_refl) as [OX ->]. exists (mkCl x (total OP g x) (total OP g x)). split; [reflexivity|]. split; [right|]; auto.
  - exists (mkCl (lp_arg L) (lp_value L) (lp_bound L)). split; auto. split; auto. intros _ LK CO NS. destruct (H2 CO NS PM) as (x & v & E'); [lia|discriminate].
  - exists (mkCl (lp_arg L) (lp_value L) (lp_bound L)). split; auto. split; auto. intros _ LK CO NS. destruct (H2 CO NS PM) as (x & v & E'); [lia|discriminate].
Qed.
End Loop.
