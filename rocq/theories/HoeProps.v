(** C54: the reduction of a polynomial in 0/1 variables to a quadratic energy has the same minima.
    Spec: HoeSpec.v; model: HoeModel.v (include/opengm/inference/fix-fusion/higher-order-energy.hpp). *)
From Coq Require Import QArith Qcanon Sorting.Sorted.
From Verif Require Import Base HoeModel HoeSpec HoeProofs HoeElim HoeReduce.
Open Scope nat_scope.

Lemma wf_new D : wf_hoe D hoe_new.
Proof. split; [reflexivity|]. intros v r E. destruct v; discriminate. Qed.

(** Whatever monomials are added, in whatever order, the quadratic energy, minimized over the variables that the
    reduction has introduced, is the polynomial without its constant. *)
Theorem C54_reduction D cs : calls_ok D 0 cs ->
  exists q, hoe_quadratic D cs = Ret q /\ poly_vars cs <= q_nodes q /\ q_closed q /\
    min_over (poly_vars cs) (q_value q) (fun x => (poly cs x - poly_const cs)%Qc).
Proof.
  intros OK. destruct (run_ok D cs hoe_new (wf_new D) OK) as (h & E & W & L & K & M). destruct (to_quadratic_ok D h W) as (h' & q & E' & W' & K' & LL & C & M1 & M2).
  exists q. unfold hoe_quadratic, hoe_run. rewrite E. cbn [bind]. rewrite E'. cbn [bind]. split; [reflexivity|]. cbn in L. rewrite L in *. split; [lia|]. split; [exact C|].
  eapply (min_over_trans _ _ _ _ _ (proj1 LL) M2). eapply (min_over_trans _ (poly_vars cs) _ _ _ (le_n _) M1). apply min_over_refl. intros x. rewrite M. unfold sem. cbn. qring.
Qed.

(** The reduction changes the energy object; it may be repeated all the same. *)
Theorem C54_repeated D cs k : calls_ok D 0 cs ->
  exists h q, hoe_run D cs = Ret h /\ hoe_requadratic D k h = Ret q /\ poly_vars cs <= q_nodes q /\
    min_over (poly_vars cs) (q_value q) (fun x => (poly cs x - poly_const cs)%Qc).
Proof.
  intros OK. destruct (run_ok D cs hoe_new (wf_new D) OK) as (h & E & W & L & K & M). exists h. cbn in L.
  assert (X : exists q, hoe_requadratic D k h = Ret q /\ length (h_recs h) <= q_nodes q /\ min_over (length (h_recs h)) (q_value q) (sem h)).
  { clear - W. revert h W. induction k as [|k IH]; intros h W; cbn [hoe_requadratic]; destruct (to_quadratic_ok D h W) as (h' & q & E' & W' & K' & LL & C & M1 & M2); rewrite E'; cbn [bind].
    - exists q. split; [reflexivity|]. split; [lia|]. exact (min_over_trans _ _ _ _ _ (proj1 LL) M2 M1).
    - destruct (IH h' W') as (q2 & E2 & L2 & M3). exists q2. split; [exact E2|]. split; [lia|]. exact (min_over_trans _ _ _ _ _ (proj1 LL) M3 M1). }
  destruct X as (q & E2 & L2 & M2). exists q. split; [exact E|]. split; [exact E2|]. rewrite L in *. split; [lia|].
  eapply (min_over_trans _ (poly_vars cs) _ _ _ (le_n _) M2). apply min_over_refl. intros x. rewrite M. unfold sem. cbn. qring.
Qed.

Lemma poly_ext D : forall cs n x y, calls_ok D n cs -> (forall v, v < n + poly_vars cs -> y v = x v) -> poly cs y = poly cs x.
Proof.
  induction cs as [|c cs IH]; intros n x y OK H; [reflexivity|]. unfold poly in *. cbn [map qsum]. destruct c as [m|c vs|v c|]; cbn [calls_ok] in OK; cbn [call_value].
  - rewrite (IH (n + m) x y OK); [reflexivity|]. intros v Hv. apply H. cbn. unfold poly_vars in Hv. lia.
  - destruct OK as (_ & B & _ & OK). rewrite (IH n x y OK); [|intros v Hv; apply H; exact Hv]. f_equal. apply mono_ext. intros v Hv. apply H. rewrite Forall_forall in B. specialize (B v Hv). cbn in B. lia.
  - destruct OK as (B & OK). rewrite (IH n x y OK); [|intros v' Hv; apply H; exact Hv]. f_equal. apply mono_ext. intros v' [<-|[]]. apply H. lia.
  - destruct OK.
Qed.

(** A minimizer of the quadratic energy is a minimizer of the polynomial. *)
Theorem C54_minimizer D cs q x : calls_ok D 0 cs -> hoe_quadratic D cs = Ret q -> minimizer (q_value q) x -> minimizer (poly cs) x.
Proof.
  intros OK E Mx y. destruct (C54_reduction D cs OK) as (q' & E' & _ & _ & A & B). rewrite E in E'. injection E' as <-. cbv beta in *.
  destruct (B y) as (z & _ & Z). specialize (A x). specialize (Mx z). rewrite Z in Mx. qlra.
Qed.
(** Labels that are persistent for the quadratic energy are persistent for the polynomial. *)
Theorem C54_persistency D cs q ps : calls_ok D 0 cs -> hoe_quadratic D cs = Ret q -> persistent (q_value q) ps -> persistent (poly cs) ps.
Proof.
  intros OK E P x. destruct (C54_reduction D cs OK) as (q' & E' & _ & _ & A & B). rewrite E in E'. injection E' as <-. cbv beta in *.
  destruct (B x) as (z & Zx & Z). specialize (P z). specialize (A (patch ps z)). rewrite Z in P.
  replace (poly cs (patch ps x)) with (poly cs (patch ps z)); [qlra|]. apply (poly_ext D cs 0 _ _ OK). intros v Hv. unfold patch. destruct (ps v); [reflexivity|]. apply Zx. exact Hv.
Qed.

(** A polynomial of degree four with positive and negative monomials, equal monomials and a constant. *)
Definition hoe_case : list hoecall :=
  [CVars 3; CTerm (q_of_Z 2) [0; 1; 2]; CVars 1; CTerm (q_of_Z (-3)) [0; 1; 3]; CTerm (q_of_Z 4) [0; 1; 2; 3]; CTerm (q_of_Z 5) []; CUnary 2 (q_of_Z (-1)); CTerm (q_of_Z (-1)) [0; 1; 2]; CTerm (q_of_Z (-2)) [1; 3]].
Example C54_case_ok : calls_ok 4 0 hoe_case.
Proof. cbn. repeat (split; [repeat constructor; lia|]). repeat split; repeat constructor; lia. Qed.
Example C54_case : exists q, hoe_quadratic 4 hoe_case = Ret q /\ q_nodes q = 12 /\ poly hoe_case (fun v => v <? 2) = q_of_Z 5 /\ poly hoe_case (fun v => v <? 4) = q_of_Z 4 /\
  q_value q (fun v => (v <? 2)) = 0%Qc.
Proof. eexists. split; [vm_compute; reflexivity|]. repeat split; vm_compute; reflexivity. Qed.

(** The variables of a monomial must be increasing: [3;0;1;2] leaves a positive cubic monomial in the record of a variable
    that is finished, and the reduction of a negative monomial is applied to it.  Every assignment of the polynomial has
    at least value 0, the quadratic energy has the value -2. *)
Theorem C54_unsorted_refuted : exists cs q x, cs = [CVars 4; CTerm (q_of_Z 1) [3; 0; 1; 2]] /\ hoe_quadratic 4 cs = Ret q /\
  (forall y, (0 <= poly cs y)%Qc) /\ q_value q x = q_of_Z (-2).
Proof.
  do 2 eexists. exists (fun v => v =? 8). split; [reflexivity|]. split; [vm_compute; reflexivity|]. split; [|vm_compute; reflexivity].
  intros y. unfold poly. cbn [map qsum call_value]. unfold mono. destruct (forallb y _); vm_compute; discriminate.
Qed.
(** Clear keeps the counter of the variables: the monomials that are added afterwards reach other variables of the solver. *)
Theorem C54_clear_refuted : exists cs q, calls_ok 4 0 cs /\ hoe_quadratic 4 ([CVars 2; CClear] ++ cs) = Ret q /\
  ~ min_over (poly_vars cs) (q_value q) (fun x => (poly cs x - poly_const cs)%Qc).
Proof.
  exists [CVars 2; CUnary 0 (q_of_Z 1)]. eexists. split; [cbn; lia|]. split; [vm_compute; reflexivity|]. intros [A _]. specialize (A (fun v => v =? 0)). vm_compute in A. apply A. reflexivity.
Qed.
(** Clear keeps the constant, too. *)
Theorem C54_clear_constant_refuted : exists cs h, hoe_run 4 (cs ++ [CClear]) = Ret h /\ h_const h <> h_const hoe_new.
Proof. exists [CTerm (q_of_Z 5) []]. eexists. split; [vm_compute; reflexivity|]. intros H. apply (f_equal this) in H. vm_compute in H. discriminate. Qed.
(** A monomial with more than D variables is written beyond the array of its term. *)
Theorem C54_degree_refuted : exists cs, calls_ok 5 0 cs /\ hoe_quadratic 4 cs = Undef.
Proof. exists [CVars 5; CTerm (q_of_Z 1) [0; 1; 2; 3; 4]]. split; [|vm_compute; reflexivity]. cbn. repeat split; repeat constructor; lia. Qed.

Print Assumptions C54_reduction.
Print Assumptions C54_repeated.
Print Assumptions C54_minimizer.
Print Assumptions C54_persistency.
Print Assumptions C54_unsorted_refuted.
Print Assumptions C54_clear_refuted.
Print Assumptions C54_clear_constant_refuted.
Print Assumptions C54_degree_refuted.
