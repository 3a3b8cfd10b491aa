(** Regions of variables without label in an acyclic model, and labelings that differ only in a region. *)
From Coq Require Import Sorted Permutation Relations.
From Verif Require Import Base Values GmView GmViewSpec ShapeSpec FactorOpsSpec FactorGraphModel FactorGraphSpec FactorGraphProofs FactorGraphAcyclic MpModel MpSpec MpSum MpGraph MpState MpMessages ModeSelect.

Section Tree.
Variable T : Type.
Variable OP : oper T.
Variable g : gmv T.
Hypothesis WF : wf_gmv g.
Notation n := (length (v_labels g)).
Notation m := (length (v_factors g)).
Notation vars := (vars T OP g).
Notation okl := (okl T g).

(** ** Regions *)
Definition link (un : nat -> bool) (a b : nat) : Prop :=
  un a = true /\ un b = true /\ exists h, h < m /\ In a (vars h) /\ In b (vars h).
Definition reach (un : nat -> bool) : nat -> nat -> Prop := clos_refl_trans nat (link un).
Lemma link_sym : forall un a b, link un a b -> link un b a.
Proof. intros un a b (A & B & h & H & Ia & Ib). split; auto. split; auto. eauto. Qed.
Lemma reach_sym : forall un a b, reach un a b -> reach un b a.
Proof. intros un a b H. induction H; [apply rt_step, link_sym; auto|apply rt_refl|eapply rt_trans; eauto]. Qed.
Lemma reach_un : forall un a b, reach un a b -> un a = true -> un b = true.
Proof. intros un a b H. induction H; auto. intros _. apply H. Qed.
Lemma reach_mono : forall (un un' : nat -> bool) a b, (forall v, un' v = true -> un v = true) -> reach un' a b -> reach un a b.
Proof.
  intros un un' a b K H. induction H as [a b (A & B & h & H1 & H2 & H3)| |]; [|apply rt_refl|eapply rt_trans; eauto]. apply rt_step. split; auto. split; auto. eauto.
Qed.

(** A factor of [d] that has a variable of the region of [u]. *)
Definition touch (un : nat -> bool) (d h u : nat) : Prop := h < m /\ In d (vars h) /\ exists w, un w = true /\ reach un u w /\ In w (vars h).
Lemma touch_mono : forall (un un' : nat -> bool) d h u, (forall v, un' v = true -> un v = true) -> touch un' d h u -> touch un d h u.
Proof. intros un un' d h u K (A & B & w & W1 & W2 & W3). split; auto. split; auto. exists w. split; auto. split; auto. eapply reach_mono; eauto. Qed.
Lemma touch_reach : forall un d h u u', reach un u u' -> touch un d h u -> touch un d h u'.
Proof. intros un d h u u' R (A & B & w & W1 & W2 & W3). split; auto. split; auto. exists w. split; auto. split; auto. eapply rt_trans; [apply reach_sym; exact R|auto]. Qed.

Section Acyclic.
Hypothesis AC : acyclic g.
Notation Ed := (edge (fgraph_of T g)).
Lemma touch_side : forall un d h u, un d = false -> touch un d h u -> side node Ed (NF h) (NV d) (NV u).
Proof.
  intros un d h u D (Hh & Dh & w & Uw & R & Wh). apply reach_sym in R. apply clos_rt_rtn1 in R.
  assert (NE : forall v, un v = true -> v <> d) by (intros v V ->; congruence).
  induction R as [|y z (Uy & Uz & k & Hk & Iy & Iz) R IH].
  - eapply side_step; [apply side_self|]. split; [apply (E_iff' T OP g); auto|]. split; intros [A B]; [apply (NE w Uw); congruence|discriminate].
  - eapply side_step; [eapply side_step; [exact IH|]|].
    + split; [apply (E_iff T OP g); split; [exact Hk|exact Iy]|]. split; intros [A B]; [discriminate|apply (NE y Uy); congruence].
    + split; [apply (E_iff' T OP g); auto|]. split; intros [A B]; [apply (NE z Uz); congruence|discriminate].
Qed.
(** A labeled variable touches a region through one factor only. *)
Lemma touch_one : forall un d h1 h2 u, un d = false -> touch un d h1 u -> touch un d h2 u -> h1 = h2.
Proof.
  intros un d h1 h2 u D T1 T2. destruct (Nat.eq_dec h1 h2) as [|N]; auto. exfalso.
  apply (sd_disj T g AC (NV d) (NF h1) (NF h2) (NV u)); [apply (E_iff T OP g); split; apply T1|apply (E_iff T OP g); split; apply T2|congruence| |]; eapply touch_side; eauto.
Qed.
End Acyclic.

(** A region is a finite set. *)
Lemma region : forall un u, (forall v, un v = true -> v < n) -> un u = true ->
  exists R, In u R /\ (forall v, In v R -> un v = true /\ reach un u v) /\
    forall v h w, In v R -> h < m -> In v (vars h) -> In w (vars h) -> un w = true -> In w R.
Proof.
  intros un u UN Uu.
  assert (G : forall k R, n <= length R + k -> NoDup R -> In u R -> (forall v, In v R -> un v = true /\ reach un u v) ->
    exists R, In u R /\ (forall v, In v R -> un v = true /\ reach un u v) /\ forall v h w, In v R -> h < m -> In v (vars h) -> In w (vars h) -> un w = true -> In w R).
  { induction k as [|k IH]; intros R L ND IU HR.
    - exists R. split; auto. split; auto. intros v h w _ _ _ _ Uw. destruct (in_dec Nat.eq_dec w R) as [|NI]; auto. exfalso.
      assert (X : length (w :: R) <= length (seq 0 n)). { apply NoDup_incl_length; [constructor; auto|]. intros x [<-|Hx]; apply in_seq; [pose proof (UN w Uw); lia|]. apply HR in Hx. destruct Hx as [Hx _]. apply UN in Hx. lia. }
      rewrite seq_length in X. cbn [length] in X. lia.
    - set (cand := filter (fun w => un w && negb (existsb (Nat.eqb w) R) && existsb (fun h => existsb (Nat.eqb w) (vars h) && existsb (fun v => existsb (Nat.eqb v) (vars h)) R) (seq 0 m)) (seq 0 n)).
      assert (EX : forall v l, existsb (Nat.eqb v) l = true <-> In v l). { intros. rewrite existsb_exists. split; [intros (x & H & K); apply Nat.eqb_eq in K; congruence|intros H; exists v; split; auto; apply Nat.eqb_refl]. }
      assert (IC : forall w, In w cand <-> un w = true /\ ~ In w R /\ exists h v, h < m /\ In w (vars h) /\ In v R /\ In v (vars h)).
      { intros w. unfold cand. rewrite filter_In, !andb_true_iff, negb_true_iff, <- not_true_iff_false, EX, existsb_exists. split.
        - intros (_ & (A & B) & h & Hh & C). apply andb_true_iff in C. destruct C as [C1 C2]. apply EX in C1. apply existsb_exists in C2. destruct C2 as (v & Rv & C2). apply EX in C2. apply in_seq in Hh.
          split; auto. split; auto. exists h, v. repeat split; auto. lia.
        - intros (A & B & h & v & Hh & C1 & C2 & C3). split; [apply in_seq; pose proof (UN w A); lia|]. split; auto. exists h. split; [apply in_seq; lia|]. apply andb_true_iff. rewrite EX. split; auto.
          apply existsb_exists. exists v. rewrite EX. auto. }
      destruct cand as [|w ws] eqn:Q.
      + exists R. split; auto. split; auto. intros v h w Iv Hh Vh Wh Uw. destruct (in_dec Nat.eq_dec w R) as [|NI]; auto. exfalso. apply (IC w). split; auto. split; auto. exists h, v. auto.
      + destruct (proj1 (IC w) (or_introl eq_refl)) as (Uw & NI & h & v & Hh & Wh & Rv & Vh). apply (IH (w :: R)); auto.
        * cbn [length]. lia.
        * constructor; auto.
        * right; auto.
        * intros x [<-|Hx]; auto. split; auto. destruct (HR v Rv) as [Uv Ruv]. eapply rt_trans; [exact Ruv|]. apply rt_step. split; auto. split; auto. eauto. }
  apply (G n [u]); [lia|repeat constructor; auto|left; auto|]. intros v [<-|[]]. split; auto. apply rt_refl.
Qed.

(** ** Exchange *)
Section Exchange.
Variable fin : T -> Prop.
Variable ACC : accum T.
Hypothesis SL : semiring_laws fin OP ACC.
Hypothesis AL : acc_laws fin OP ACC.
Hypothesis FG : fin_gmv fin g.
Notation E := (value_at OP g).
Notation op := (o_op OP).
Notation bop := (a_bop ACC).
(** [y] on the variables [R], [x] elsewhere. *)
Definition mix (R : list nat) (y x : nat -> nat) : nat -> nat := fun v => if in_dec Nat.eq_dec v R then y v else x v.
Lemma mix_in : forall R y x v, In v R -> mix R y x v = y v.
Proof. intros R y x v H. unfold mix. destruct (in_dec Nat.eq_dec v R); tauto. Qed.
Lemma mix_out : forall R y x v, ~ In v R -> mix R y x v = x v.
Proof. intros R y x v H. unfold mix. destruct (in_dec Nat.eq_dec v R); tauto. Qed.
Lemma mix_okl : forall R y x, okl y -> okl x -> okl (mix R y x).
Proof. intros R y x Y X v Hv. unfold mix. destruct (in_dec Nat.eq_dec v R); auto. Qed.

(** Where two labelings agree around a region, each part can be taken from the better one. *)
Lemma exchange : forall R x y, okl x -> okl y ->
  (forall h v d, h < m -> In v R -> In v (vars h) -> In d (vars h) -> ~ In d R -> x d = y d) ->
  bop (E (mix R x y)) (E y) = false -> bop (E x) (E (mix R y x)) = false.
Proof.
  intros R x y X Y B.
  set (p := fun h => existsb (fun v => existsb (Nat.eqb v) (vars h)) R). set (fi := filter p (seq 0 m)). set (fo := filter (fun h => negb (p h)) (seq 0 m)).
  assert (EX : forall v l, existsb (Nat.eqb v) l = true <-> In v l). { intros. rewrite existsb_exists. split; [intros (w & H & K); apply Nat.eqb_eq in K; congruence|intros H; exists v; split; auto; apply Nat.eqb_refl]. }
  assert (Ii : forall f, In f fi <-> f < m /\ exists v, In v R /\ In v (vars f)).
  { intros f. unfold fi, p. rewrite filter_In, in_seq, existsb_exists. split; [intros (A & v & C & D); rewrite EX in D; split; [lia|eauto]|intros (A & v & C & D); split; [lia|]; exists v; rewrite EX; auto]. }
  assert (Io : forall f, In f fo <-> f < m /\ forall v, In v R -> ~ In v (vars f)).
  { intros f. unfold fo. rewrite filter_In, in_seq, negb_true_iff. split.
    - intros (A & C). split; [lia|]. intros v Rv Vf. assert (Q : p f = true) by (apply existsb_exists; exists v; rewrite EX; auto). congruence.
    - intros (A & C). split; [lia|]. apply not_true_iff_false. intros Q. apply existsb_exists in Q. destruct Q as (v & Rv & Q). rewrite EX in Q. apply (C v); auto. }
  assert (Mi : forall f, In f fi -> f < m) by (intros f H; apply Ii in H; tauto). assert (Mo : forall f, In f fo -> f < m) by (intros f H; apply Io in H; tauto).
  assert (SP : forall z, okl z -> E z = op (fprod T OP g fo z) (fprod T OP g fi z)).
  { intros z Z. rewrite (value_fprod T fin OP ACC SL g WF FG) by auto. rewrite <- (fprod_app T fin OP ACC SL g WF FG) by auto. apply (fprod_set T fin OP ACC SL g WF FG); auto.
    - apply seq_NoDup.
    - assert (NA : forall a b : list nat, NoDup a -> NoDup b -> (forall v, In v a -> ~ In v b) -> NoDup (a ++ b)).
      { induction a as [|k a IH]; intros b Na Nb D; auto. inversion Na; subst. cbn [app]. constructor; [rewrite in_app_iff; intros [K|K]; [auto|apply (D k); auto; left; auto]|apply IH; auto; intros v Hv; apply D; right; auto]. }
      apply NA; try (apply NoDup_filter, seq_NoDup). intros f Hf Hg. apply Io in Hf. apply Ii in Hg. destruct Hg as (_ & v & C & D). apply (proj2 Hf v); auto.
    - intros f. rewrite in_app_iff. unfold fi, fo. rewrite !filter_In. destruct (p f); cbn [negb]; intuition congruence.
    - intros f Hf. apply in_seq in Hf. lia. }
  assert (AI : forall a b, (forall h v d, h < m -> In v R -> In v (vars h) -> In d (vars h) -> ~ In d R -> a d = b d) -> fprod T OP g fi (mix R a b) = fprod T OP g fi a).
  { intros a b Bab. apply (fprod_only T OP g). intros w (f & Hf & Hw). apply Ii in Hf. destruct Hf as (Hm & v & Rv & Vf). unfold mix. destruct (in_dec Nat.eq_dec w R) as [|NI]; auto.
    symmetry. eapply Bab; eauto. }
  assert (AO : forall a b, fprod T OP g fo (mix R a b) = fprod T OP g fo b).
  { intros a b. apply (fprod_only T OP g). intros w (f & Hf & Hw). apply Io in Hf. destruct Hf as (Hm & C). apply mix_out. intros K. apply (C w); auto. }
  assert (FI : forall z, okl z -> fin (fprod T OP g fi z)) by (intros z Z; apply (fprod_fine T fin OP ACC SL g WF FG fi Mi z Z)).
  assert (FO : forall z, okl z -> fin (fprod T OP g fo z)) by (intros z Z; apply (fprod_fine T fin OP ACC SL g WF FG fo Mo z Z)).
  intros H. rewrite !SP in * by (auto; apply mix_okl; auto). rewrite AO in *. rewrite AI in H by auto. rewrite AI by (intros h v d Hh Rv Vh Dh ND; symmetry; eapply B; eauto).
  rewrite (al_mono _ _ _ AL) in * by auto. auto.
Qed.
End Exchange.
End Tree.
