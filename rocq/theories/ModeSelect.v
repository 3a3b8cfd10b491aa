(** Labels chosen from tables of marginals belong to best labelings. *)
From Coq Require Import Sorted Permutation Relations.
From Verif Require Import Base Values GmView GmViewSpec ShapeSpec ShapeProofs IndexingProofs UtilModel FactorOpsModel FactorOpsSpec FactorOpsProofs FactorOpsTables FactorOpsAcc FactorOpsProps MpModel MpSpec MpSum MpState MpMessages MpTables ModeModel.

Section Select.
Variable T : Type.
Variable fin : T -> Prop.
Variable OP : oper T.
Variable ACC : accum T.
Hypothesis SL : semiring_laws fin OP ACC.
Hypothesis AL : acc_laws fin OP ACC.
Hypothesis SE : acc_select fin ACC.
Variable g : gmv T.
Hypothesis WF : wf_gmv g.
Hypothesis FG : fin_gmv fin g.
Notation n := (length (v_labels g)).
Notation m := (length (v_factors g)).
Notation nl := (labels_at g).
Notation one := (o_neutral OP).
Notation op := (o_op OP).
Notation bop := (a_bop ACC).
Notation vars := (vars T OP g).
Notation okl := (okl T g).
Notation inside := (inside T g).
Notation E := (value_at OP g).
Let P0 : positive (v_labels g) := POS T g WF.

(** ** Accumulation with selection *)
Lemma not_both : forall a b, fin a -> fin b -> bop a b = true -> bop b a = false.
Proof.
  intros a b A B H. destruct (bop b a) eqn:K; auto. rewrite <- (al_irrefl _ _ _ AL a A). symmetry. apply (al_trans _ _ _ AL a b a); auto.
Qed.
Lemma feed_best : forall (l : list (T * list nat)) v c, fin v -> (forall p, In p l -> fin (fst p)) ->
  let r := fold_left (fun a p => acc_feed T bop (a_op ACC) a (fst p) (snd p)) l (mkAcc v c) in
  In (acc_value r, acc_state r) ((v, c) :: l) /\ forall p, In p ((v, c) :: l) -> bop (fst p) (acc_value r) = false.
Proof.
  induction l as [|[w d] l IH]; intros v c FV FL; cbn [fold_left].
  - cbn [acc_value acc_state]. split; [left; auto|]. intros p [<-|[]]. apply (al_irrefl _ _ _ AL); auto.
  - assert (FW : fin w) by (apply (FL (w, d)); left; auto). assert (FL' : forall p, In p l -> fin (fst p)) by (intros; apply FL; right; auto).
    cbn [fst snd]. destruct (al_op _ _ SE w v FW FV) as [A1 A2]. destruct (bop w v) eqn:Q.
    + assert (X : acc_feed T bop (a_op ACC) (mkAcc v c) w d = mkAcc w d) by (unfold acc_feed; cbn [acc_value acc_state]; rewrite Q, A1; auto). rewrite X. destruct (IH w d FW FL') as [H1 H2]. split; [right; exact H1|]. intros p [<-|Hp]; [|apply H2; auto]. cbn [fst].
      assert (FR : fin (acc_value (fold_left (fun a p => acc_feed T bop (a_op ACC) a (fst p) (snd p)) l (mkAcc w d)))).
      { destruct H1 as [H1|H1]; [apply (f_equal fst) in H1; cbn [fst] in H1; rewrite <- H1; auto|apply (FL' _ H1)]. }
      apply (al_negtrans _ _ _ AL v w); auto; [apply not_both; auto|]. apply (H2 (w, d)). left; auto.
    + assert (X : acc_feed T bop (a_op ACC) (mkAcc v c) w d = mkAcc v c) by (unfold acc_feed; cbn [acc_value acc_state]; rewrite Q, A2; auto). rewrite X. destruct (IH v c FV FL') as [H1 H2]. split; [destruct H1; [left; auto|right; right; auto]|]. intros p [<-|[<-|Hp]]; [apply (H2 (v, c)); left; auto| |apply H2; right; auto]. cbn [fst].
      assert (FR : fin (acc_value (fold_left (fun a p => acc_feed T bop (a_op ACC) a (fst p) (snd p)) l (mkAcc v c)))).
      { destruct H1 as [H1|H1]; [apply (f_equal fst) in H1; cbn [fst] in H1; rewrite <- H1; auto|apply (FL' _ H1)]. }
      apply (al_negtrans _ _ _ AL w v); auto. apply (H2 (v, c)). left; auto.
Qed.
Lemma run_best : forall (l : list (T * list nat)), l <> [] -> (forall p, In p l -> fin (fst p)) ->
  let r := acc_run T (a_neutral ACC) bop (a_op ACC) l in
  In (acc_value r, acc_state r) l /\ forall p, In p l -> bop (fst p) (acc_value r) = false.
Proof.
  intros [|[v c] l] N FL; [congruence|]. unfold acc_run. cbn [fold_left fst snd].
  assert (FV : fin v) by (apply (FL (v, c)); left; auto). destruct (al_neutral _ _ SE v FV) as [X1 X2].
  assert (X : acc_feed T bop (a_op ACC) (acc_init T (a_neutral ACC)) v c = mkAcc v c) by (unfold acc_feed, acc_init; cbn [acc_value acc_state]; rewrite X1, X2; auto). rewrite X. apply feed_best; auto. intros; apply FL; right; auto.
Qed.
Lemma values_best : forall l, l <> [] -> Forall fin l ->
  In (accumulate_values T (a_op ACC) (a_neutral ACC) l) l /\ forall v, In v l -> bop v (accumulate_values T (a_op ACC) (a_neutral ACC) l) = false.
Proof.
  intros l N F. destruct (run_best (map (fun v => (v, [])) l)) as [H1 H2].
  - destruct l; [congruence|discriminate].
  - intros p Hp. apply in_map_iff in Hp. destruct Hp as (v & <- & Hv). rewrite Forall_forall in F. apply F; auto.
  - assert (Q : acc_value (acc_run T (a_neutral ACC) bop (a_op ACC) (map (fun v => (v, [])) l)) = accumulate_values T (a_op ACC) (a_neutral ACC) l).
    { unfold acc_run, accumulate_values, acc_init. clear. generalize (@nil nat) at 2 as c. generalize (a_neutral ACC). induction l as [|v l IH]; intros a c; auto. cbn [map fold_left]. apply IH. }
    rewrite Q in *. split.
    + apply in_map_iff in H1. destruct H1 as (v & Ev & Hv). congruence.
    + intros v Hv. apply (H2 (v, [])). apply in_map_iff. eauto.
Qed.

(** ** Marginals of best labelings *)
Definition agree (S : nat -> Prop) (x y : nat -> nat) : Prop := forall v, S v -> x v = y v.
Lemma E_fin : forall x, okl x -> fin (E x).
Proof. apply (value_fine T fin OP ACC SL g WF FG). Qed.
Lemma E_ext : forall x y, (forall v, v < n -> x v = y v) -> E x = E y.
Proof. intros x y H. unfold value_at. f_equal. apply map_ext_in. intros v Hv. apply in_seq in Hv. apply H. lia. Qed.
Lemma okl_agree : forall x y, okl x -> (forall v, v < n -> x v = y v) -> okl y.
Proof. intros x y H K v Hv. rewrite <- K; auto. Qed.
Lemma outside_nodup : forall S, NoDup (outside g S).
Proof. intros. apply NoDup_filter, seq_NoDup. Qed.

(** [y] is a best labeling among those that agree with [x] on [S]. *)
Definition best_in (S : nat -> Prop) (x y : nat -> nat) : Prop :=
  okl y /\ agree S x y /\ forall z, okl z -> agree S x z -> bop (E z) (E y) = false.
Lemma best_ext : forall (S S' : nat -> Prop) x x' y, (forall v, S v <-> S' v) -> agree S x x' -> best_in S x y -> best_in S' x' y.
Proof.
  intros S S' x x' y H A (B1 & B2 & B3). split; auto. split; [intros v Hv; apply H in Hv; rewrite <- A, B2; auto|]. intros z Z A'. apply B3; auto.
  intros v Hv. rewrite A by auto. apply A'. apply H. auto.
Qed.

Lemma marg_best : forall S x, inside S -> okl x -> exists y, best_in (fun v => In v S) x y /\ marginal_of OP ACC g S x = E y.
Proof.
  intros S x IS X. unfold marginal_of. set (vs := values_over T nl (outside g S) E x).
  assert (IO : inside (outside g S)) by (intros u Hu; apply outside_in in Hu; apply Hu).
  assert (ND : NoDup (outside g S)) by apply outside_nodup.
  assert (OKV : forall c, In c (tuples nl (outside g S)) -> okl (override x (outside g S) c)).
  { intros c Hc. apply (tuples_in T g P0) in Hc; auto. apply (okl_override T g); auto. }
  destruct (values_best vs) as [H1 H2].
  - unfold vs, values_over. intros Q. apply map_eq_nil in Q. revert Q. apply tuples_nonempty. intros v Hv. apply (nl_pos T g P0). auto.
  - apply Forall_forall. intros v Hv. apply in_map_iff in Hv. destruct Hv as (c & <- & Hc). apply E_fin; auto.
  - assert (H1' := H1). unfold vs at 2 in H1'. apply in_map_iff in H1'. destruct H1' as (c & Ec & Hc). exists (override x (outside g S) c).
    split; [|auto]. split; [auto|]. split.
    + intros v Hv. symmetry. apply override_out. rewrite outside_in. tauto.
    + intros z Z A. rewrite Ec. apply H2. apply in_map_iff. exists (map z (outside g S)). split.
      * apply E_ext. intros v Hv. destruct (in_dec Nat.eq_dec v (outside g S)) as [I|NI].
        -- assert (Q : map (override x (outside g S) (map z (outside g S))) (outside g S) = map z (outside g S)) by (apply override_in; auto; apply map_length).
           rewrite map_ext_in_iff in Q. auto.
        -- rewrite override_out by auto. apply A. rewrite outside_in in NI. destruct (in_dec Nat.eq_dec v S); auto. tauto.
      * apply (tuples_in T g P0); auto. apply map_in_shape. intros v Hv. apply Z. auto.
Qed.

(** ** A table of marginals as a factor *)
Variable vone : T.
Hypothesis F1 : fin vone.
Definition tab (S : list nat) (out : list T) : (nat -> nat) -> T := fun x => nth (index_of (map nl S) (map x S)) out vone.
Lemma tab_factor : forall S out, StronglySorted lt S -> inside S -> length out = size_of (map nl S) ->
  factor_is T nl (mkTable (map nl S) out) S (tab S out).
Proof.
  intros S out SS IS L. assert (HP : forall v, In v S -> 0 < nl v) by (intros v Hv; apply (nl_pos T g P0); auto).
  assert (Q : out = map (fun k => tab S out (lab nl S k)) (seq 0 (size_of (map nl S)))).
  { unfold tab. rewrite <- L. transitivity (map (fun k => nth k out vone) (seq 0 (length out))); [symmetry; apply map_seq_nth|]. apply map_ext_in. intros k Hk. apply in_seq in Hk.
    rewrite map_lab by (apply sorted_NoDup; auto). rewrite index_of_coord; auto; [apply map_positive; auto|lia]. }
  rewrite Q at 1. apply build_factor; auto. intros x y LX A. unfold tab. do 2 f_equal. apply map_ext_in. auto.
Qed.
Lemma tab_ext : forall S out x y, (forall v, In v S -> x v = y v) -> tab S out x = tab S out y.
Proof. intros S out x y H. unfold tab. do 2 f_equal. apply map_ext_in. auto. Qed.
Lemma tab_fin : forall S out x, Forall fin out -> fin (tab S out x).
Proof.
  intros S out x F. unfold tab. destruct (nth_in_or_default (index_of (map nl S) (map x S)) out vone) as [H|H]; [|rewrite H; auto]. rewrite Forall_forall in F. auto.
Qed.
Lemma tab_marginal : forall S out c x, StronglySorted lt S -> inside S -> marginal_table OP ACC g S out c -> okl x -> marginal_of OP ACC g S x = op c (tab S out x).
Proof.
  intros S out c x SS IS M X. assert (LX : legal_at g x) by (apply okl_legal; auto). unfold tab.
  assert (HP : forall v, In v S -> 0 < nl v) by (intros v Hv; apply (nl_pos T g P0); auto).
  assert (IN : in_shape (map nl S) (map x S)) by (apply map_in_shape; intros v Hv; apply X; auto).
  unfold marginal_table in M. assert (L := index_of_lt _ _ IN). set (k := index_of (map nl S) (map x S)) in *.
  assert (G : forall (l : list (list nat)) (o : list T) k, Forall2 (fun lab value => forall x, legal_at g x -> map x S = lab -> marginal_of OP ACC g S x = op c value) l o ->
     k < length l -> map x S = nth k l [] -> marginal_of OP ACC g S x = op c (nth k o vone)).
  { clear - LX. intros l o k F. revert k. induction F as [|a b l o H F IH]; intros k Hk Q; [cbn in Hk; lia|]. destruct k; cbn [nth] in *; [apply H; auto|apply IH; auto; cbn in Hk; lia]. }
  apply (G _ _ k M).
  - unfold tuples. rewrite map_length, seq_length. auto.
  - unfold tuples. rewrite nth_map_in with (d := 0) by (rewrite seq_length; auto). rewrite seq_nth by auto. unfold k. cbn [Nat.add]. rewrite coord_of_index; auto.
Qed.
End Select.
