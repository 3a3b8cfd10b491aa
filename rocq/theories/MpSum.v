(** Sums over the labels of variables, for a commutative semiring. *)
From Coq Require Import Permutation.
From Verif Require Import Base Values GmView GmViewSpec ShapeSpec ShapeProofs FactorOpsSpec FactorOpsProofs MpModel MpSpec.

Section Sum.
Variable T : Type.
Variable fin : T -> Prop.
Variable OP : oper T.
Variable ACC : accum T.
Hypothesis SL : semiring_laws fin OP ACC.
Notation op := (o_op OP).
Notation ac := (a_op ACC).
Notation one := (o_neutral OP).

Lemma unit_r : forall a, fin a -> op a one = a.
Proof. intros. rewrite (sl_comm _ _ _ SL) by (auto; apply (sl_neutral _ _ _ SL)). apply (sl_unit _ _ _ SL). auto. Qed.
Lemma op4 : forall a b c d, fin a -> fin b -> fin c -> fin d -> op (op a b) (op c d) = op (op a c) (op b d).
Proof.
  intros a b c d A B C D. pose proof (sl_op _ _ _ SL) as X. rewrite <- !(sl_assoc _ _ _ SL) by auto. f_equal.
  rewrite !(sl_assoc _ _ _ SL) by auto. f_equal. apply (sl_comm _ _ _ SL); auto.
Qed.

(** Accumulation of a list. *)
Definition asum (l : list T) : T := accumulate_values T ac (a_neutral ACC) l.
Definition asum1 (a : T) (l : list T) : T := fold_left (fun r v => ac v r) l a.
Lemma asum_cons : forall a l, fin a -> asum (a :: l) = asum1 a l.
Proof. intros a l F. unfold asum, accumulate_values, asum1. cbn [fold_left]. rewrite (sl_aneutral _ _ _ SL); auto. Qed.
Lemma asum1_fin : forall l a, fin a -> Forall fin l -> fin (asum1 a l).
Proof. induction l as [|b l IH]; intros a A F; auto. inversion F; subst. apply IH; auto. apply (sl_acc _ _ _ SL); auto. Qed.
Lemma asum_fin : forall l, l <> [] -> Forall fin l -> fin (asum l).
Proof. intros [|a l] N F; [congruence|]. inversion F; subst. rewrite asum_cons by auto. apply asum1_fin; auto. Qed.
Lemma asum1_ac : forall l a b, fin a -> fin b -> Forall fin l -> asum1 (ac a b) l = ac a (asum1 b l).
Proof.
  induction l as [|c l IH]; intros a b A B F; auto. inversion F; subst. cbn [asum1 fold_left]. change (fold_left (fun r v => ac v r) l ?a) with (asum1 a l).
  rewrite <- IH; auto; [|apply (sl_acc _ _ _ SL); auto]. f_equal. rewrite !(sl_aassoc _ _ _ SL) by auto. f_equal. apply (sl_acomm _ _ _ SL); auto.
Qed.
Lemma asum1_perm : forall l l', Permutation l l' -> forall a, fin a -> Forall fin l -> asum1 a l = asum1 a l'.
Proof.
  intros l l' P. induction P as [|c l l' P IH|c d l|l l' l'' P1 IH1 P2 IH2]; intros a A F; auto.
  - inversion F; subst. cbn [asum1 fold_left]. apply IH; auto. apply (sl_acc _ _ _ SL); auto.
  - inversion F as [|? ? F1 F2]; subst. inversion F2; subst. cbn [asum1 fold_left]. f_equal. rewrite !(sl_aassoc _ _ _ SL) by auto. f_equal. apply (sl_acomm _ _ _ SL); auto.
  - rewrite IH1 by auto. apply IH2; auto. rewrite <- P1. auto.
Qed.
Lemma asum_perm : forall l l', Permutation l l' -> Forall fin l -> asum l = asum l'.
Proof.
  intros l l' P. induction P as [|c l l' P IH|c d l|l l' l'' P1 IH1 P2 IH2]; intros F; auto.
  - inversion F; subst. rewrite !asum_cons by auto. apply asum1_perm; auto.
  - inversion F as [|? ? F1 F2]; subst. inversion F2; subst. rewrite !asum_cons by auto. cbn [asum1 fold_left]. rewrite (sl_acomm _ _ _ SL) by auto. auto.
  - rewrite IH1 by auto. apply IH2; auto. rewrite <- P1. auto.
Qed.
Lemma asum_app : forall l l', l <> [] -> l' <> [] -> Forall fin l -> Forall fin l' -> asum (l ++ l') = ac (asum l) (asum l').
Proof.
  intros [|a l] [|b l'] N N' F F'; try congruence. inversion F; inversion F'; subst. cbn [app]. rewrite !asum_cons by auto. unfold asum1. rewrite fold_left_app.
  cbn [fold_left]. change (fold_left (fun r v => ac v r) ?l ?a) with (asum1 a l). rewrite (sl_acomm _ _ _ SL b) by (auto; apply asum1_fin; auto). apply asum1_ac; auto. apply asum1_fin; auto.
Qed.
Lemma asum_dist : forall l c, fin c -> l <> [] -> Forall fin l -> op c (asum l) = asum (map (op c) l).
Proof.
  intros [|a l] c C N F; [congruence|]. inversion F as [|? ? A F']; subst. cbn [map]. rewrite !asum_cons by (auto; apply (sl_op _ _ _ SL); auto). clear F N. revert a A.
  induction l as [|b l IH]; intros a A; auto. inversion F'; subst. cbn [map asum1 fold_left]. change (fold_left (fun r v => ac v r) ?l ?a) with (asum1 a l).
  rewrite IH; auto; [|apply (sl_acc _ _ _ SL); auto]. f_equal. apply (sl_dist _ _ _ SL); auto.
Qed.
Lemma asum_map_ac : forall A (l : list A) (f h : A -> T), l <> [] -> (forall a, In a l -> fin (f a)) -> (forall a, In a l -> fin (h a)) ->
  asum (map (fun a => ac (f a) (h a)) l) = ac (asum (map f l)) (asum (map h l)).
Proof.
  intros A l f h. induction l as [|a l IH]; intros N F H; [congruence|]. destruct l as [|b l].
  { cbn [map]. rewrite !asum_cons; [reflexivity|apply H; left; auto|apply F; left; auto|]. apply (sl_acc _ _ _ SL); [apply F|apply H]; left; auto. }
  assert (E : forall (k : A -> T), (forall a0, In a0 (a :: b :: l) -> fin (k a0)) -> asum (map k (a :: b :: l)) = ac (k a) (asum (map k (b :: l)))).
  { intros k K. change (map k (a :: b :: l)) with ([k a] ++ map k (b :: l)). rewrite asum_app; try discriminate.
    - rewrite asum_cons; [reflexivity|]. apply K. left. auto.
    - constructor; [|constructor]. apply K. left. auto.
    - apply Forall_forall. intros y Hy. apply in_map_iff in Hy. destruct Hy as (z & <- & Hz). apply K. right. auto. }
  rewrite !E; auto; [|intros; apply (sl_acc _ _ _ SL); auto]. rewrite IH; [|discriminate|intros; apply F; right; auto|intros; apply H; right; auto].
  assert (FA : forall k : A -> T, (forall a0, In a0 (a :: b :: l) -> fin (k a0)) -> fin (asum (map k (b :: l)))).
  { intros k K. apply asum_fin; [discriminate|]. apply Forall_forall. intros y Hy. apply in_map_iff in Hy. destruct Hy as (z & <- & Hz). apply K. right. auto. }
  pose proof (FA f F) as Ff. pose proof (FA h H) as Fh. assert (fin (f a)) by (apply F; left; auto). assert (fin (h a)) by (apply H; left; auto). pose proof (sl_acc _ _ _ SL) as CL.
  rewrite <- !(sl_aassoc _ _ _ SL) by auto. f_equal. rewrite !(sl_aassoc _ _ _ SL) by auto. f_equal. apply (sl_acomm _ _ _ SL); auto.
Qed.
(** Two sums can be exchanged. *)
Lemma asum_swap : forall A B (l : list A) (m : list B) (f : A -> B -> T), l <> [] -> m <> [] -> (forall a b, In a l -> In b m -> fin (f a b)) ->
  asum (map (fun a => asum (map (f a) m)) l) = asum (map (fun b => asum (map (fun a => f a b) l)) m).
Proof.
  intros A B l m f NL NM. induction l as [|a l IH]; intros F; [congruence|].
  assert (FM : forall (a : A), In a (a :: l) -> True) by auto.
  assert (R : forall a0, (a0 = a \/ In a0 l) -> fin (asum (map (f a0) m))).
  { intros a0 Ha. apply asum_fin; [destruct m; [congruence|discriminate]|]. apply Forall_forall. intros y Hy. apply in_map_iff in Hy. destruct Hy as (z & <- & Hz). apply F; auto. destruct Ha as [->|]; [left|right]; auto. }
  destruct l as [|a' l].
  - cbn [map]. rewrite asum_cons by (apply R; auto). cbn [asum1 fold_left]. f_equal. apply map_ext_in. intros b Hb. rewrite asum_cons; [reflexivity|apply F; auto; left; auto].
  - change (map (fun a0 => asum (map (f a0) m)) (a :: a' :: l)) with ([asum (map (f a) m)] ++ map (fun a0 => asum (map (f a0) m)) (a' :: l)).
    rewrite asum_app; try discriminate; [| |].
    + rewrite IH by (try discriminate; intros; apply F; auto; right; auto). rewrite asum_cons by (apply R; auto). cbn [asum1 fold_left].
      rewrite <- asum_map_ac; auto.
      * f_equal. apply map_ext_in. intros b Hb. change (map (fun a0 => f a0 b) (a :: a' :: l)) with ([f a b] ++ map (fun a0 => f a0 b) (a' :: l)).
        rewrite asum_app; try discriminate.
        -- rewrite asum_cons; [reflexivity|apply F; auto; left; auto].
        -- constructor; [apply F; auto; left; auto|constructor].
        -- apply Forall_forall. intros y Hy. apply in_map_iff in Hy. destruct Hy as (z & <- & Hz). apply F; auto. right. auto.
      * intros b Hb. apply F; auto. left. auto.
      * intros b Hb. apply asum_fin; [discriminate|]. apply Forall_forall. intros y Hy. apply in_map_iff in Hy. destruct Hy as (z & <- & Hz). apply F; auto. right. auto.
    + constructor; [apply R; auto|constructor].
    + apply Forall_forall. intros y Hy. apply in_map_iff in Hy. destruct Hy as (z & <- & Hz). apply R. auto.
Qed.

(** Labelings. *)
Variable g : gmv T.
Hypothesis POS : positive (v_labels g).
Notation n := (length (v_labels g)).
Notation nl := (labels_at g).
Definition set (x : nat -> nat) (v l : nat) : nat -> nat := fun u => if u =? v then l else x u.
Definition okl (x : nat -> nat) : Prop := forall v, v < n -> x v < nl v.
Lemma okl_set : forall x v l, okl x -> l < nl v -> okl (set x v l).
Proof. intros x v l H Hl u Hu. unfold set. destruct (Nat.eqb_spec u v) as [->|]; auto. Qed.
Lemma nl_pos : forall v, v < n -> 0 < nl v.
Proof. intros v H. unfold labels_at. unfold positive in POS. rewrite Forall_forall in POS. apply POS. apply nth_In. auto. Qed.
Lemma seq_ne : forall v, v < n -> seq 0 (nl v) <> [].
Proof. intros v H. pose proof (nl_pos v H). destruct (nl v); [lia|discriminate]. Qed.

(** [F] depends on the variables [S] only. *)
Definition only (S : nat -> Prop) (F : (nat -> nat) -> T) : Prop := forall x y, (forall u, S u -> x u = y u) -> F x = F y.
Definition fine (F : (nat -> nat) -> T) : Prop := forall x, okl x -> fin (F x).
Definition inside (vs : list nat) : Prop := forall v, In v vs -> v < n.
Lemma only_mono : forall (S S' : nat -> Prop) F, (forall u, S u -> S' u) -> only S F -> only S' F.
Proof. intros S S' F H O x y E. apply O. auto. Qed.

Fixpoint msum (vs : list nat) (F : (nat -> nat) -> T) (x : nat -> nat) : T :=
  match vs with
  | [] => F x
  | v :: vs => asum (map (fun l => msum vs F (set x v l)) (seq 0 (nl v)))
  end.

Lemma in_seq0 : forall l m, In l (seq 0 m) <-> l < m.
Proof. intros. rewrite in_seq. lia. Qed.
Lemma msum_fin : forall vs F, fine F -> inside vs -> fine (msum vs F).
Proof.
  induction vs as [|v vs IH]; intros F FF I x X; cbn [msum]; auto. assert (v < n) by (apply I; left; auto).
  apply asum_fin. { pose proof (seq_ne v H). destruct (seq 0 (nl v)); [congruence|discriminate]. }
  apply Forall_forall. intros y Hy. apply in_map_iff in Hy. destruct Hy as (l & <- & Hl). apply in_seq0 in Hl. apply IH; auto; [|apply okl_set; auto]. intros u Hu. apply I. right. auto.
Qed.
Lemma msum_ext : forall vs F G x, inside vs -> okl x -> (forall y, okl y -> F y = G y) -> msum vs F x = msum vs G x.
Proof.
  induction vs as [|v vs IH]; intros F G x I X E; cbn [msum]; auto. f_equal. apply map_ext_in. intros l Hl. apply in_seq0 in Hl. apply IH; auto; [intros u Hu; apply I; right; auto|].
  apply okl_set; auto.
Qed.
(** On the labelings that agree with x outside of vs. *)
Lemma msum_ext_in : forall vs F G x, inside vs -> okl x -> (forall y, okl y -> (forall u, ~ In u vs -> y u = x u) -> F y = G y) -> msum vs F x = msum vs G x.
Proof.
  induction vs as [|v vs IH]; intros F G x I X E; cbn [msum]; auto. f_equal. apply map_ext_in. intros l Hl. apply in_seq0 in Hl. apply IH; auto; [intros u Hu; apply I; right; auto|apply okl_set; auto|].
  intros y Y YE. apply E; auto. intros u Hu. rewrite YE by (intros H; apply Hu; right; auto). unfold set. destruct (Nat.eqb_spec u v) as [->|]; auto. exfalso. apply Hu. left. auto.
Qed.
Lemma msum_app : forall vs ws F x, msum (vs ++ ws) F x = msum vs (msum ws F) x.
Proof. induction vs as [|v vs IH]; intros ws F x; cbn [msum app]; auto. f_equal. apply map_ext. intros l. apply IH. Qed.
Lemma msum_only : forall vs S F, only S F -> only (fun u => S u /\ ~ In u vs) (msum vs F).
Proof.
  induction vs as [|v vs IH]; intros S F O x y E; cbn [msum].
  - apply O. intros u Hu. apply E. split; auto.
  - f_equal. apply map_ext. intros l. apply (IH S F O). intros u [Hu Nu]. unfold set. destruct (Nat.eqb_spec u v) as [->|]; auto. apply E. split; auto. intros [?|?]; auto.
Qed.
Lemma msum_dist : forall vs F c x, fine F -> inside vs -> okl x -> fin c -> op c (msum vs F x) = msum vs (fun y => op c (F y)) x.
Proof.
  induction vs as [|v vs IH]; intros F c x FF I X C; cbn [msum]; auto. assert (v < n) by (apply I; left; auto). assert (I' : inside vs) by (intros u Hu; apply I; right; auto).
  rewrite asum_dist; auto.
  - rewrite map_map. f_equal. apply map_ext_in. intros l Hl. apply in_seq0 in Hl. apply IH; auto. apply okl_set; auto.
  - pose proof (seq_ne v H). destruct (seq 0 (nl v)); [congruence|discriminate].
  - apply Forall_forall. intros y Hy. apply in_map_iff in Hy. destruct Hy as (l & <- & Hl). apply in_seq0 in Hl. apply msum_fin; auto. apply okl_set; auto.
Qed.
(** The same with a factor that does not depend on vs. *)
Lemma msum_dist_fun : forall vs S F G x, fine F -> fine G -> inside vs -> okl x -> only S G -> (forall u, S u -> ~ In u vs) ->
  op (G x) (msum vs F x) = msum vs (fun y => op (G y) (F y)) x.
Proof.
  intros vs S F G x FF FG I X O D. rewrite msum_dist by auto. apply msum_ext_in; auto. intros y Y YE. f_equal. apply O. intros u Hu. symmetry. apply YE. auto.
Qed.
(** The product of two sums over different variables. *)
Lemma msum_prod : forall vs ws S S' F G x, fine F -> fine G -> inside vs -> inside ws -> okl x -> only S F -> only S' G ->
  (forall u, S u -> ~ In u ws) -> (forall u, S' u -> ~ In u vs) ->
  op (msum vs F x) (msum ws G x) = msum (vs ++ ws) (fun y => op (F y) (G y)) x.
Proof.
  intros vs ws S S' F G x FF FG I I' X O O' D D'. rewrite msum_app.
  rewrite (sl_comm _ _ _ SL) by (apply msum_fin; auto).
  rewrite (msum_dist_fun vs (fun u => S' u /\ ~ In u ws) F (msum ws G) x); auto; [|apply msum_fin; auto|apply msum_only; auto|intros u [Hu _]; auto].
  apply msum_ext; auto. intros y Y. rewrite (sl_comm _ _ _ SL); [|apply msum_fin; auto|apply FF; auto]. apply (msum_dist_fun ws S); auto.
Qed.

Lemma set_swap : forall x v l w k u, v <> w -> set (set x v l) w k u = set (set x w k) v l u.
Proof. intros x v l w k u N. unfold set. destruct (Nat.eqb_spec u w), (Nat.eqb_spec u v); auto. congruence. Qed.
Definition ext_at (F : (nat -> nat) -> T) : Prop := forall x y, (forall u, x u = y u) -> F x = F y.
Lemma only_ext : forall S F, only S F -> ext_at F.
Proof. intros S F O x y E. apply O. auto. Qed.
Lemma msum_ext_at : forall vs F, ext_at F -> ext_at (msum vs F).
Proof. intros vs F E x y H. apply (msum_only vs (fun _ => True) F); [intros a b K; apply E; intros u; apply K; auto|auto]. Qed.
Lemma msum_perm : forall vs ws, Permutation vs ws -> NoDup vs -> inside vs -> forall F x, fine F -> ext_at F -> okl x -> msum vs F x = msum ws F x.
Proof.
  intros vs ws P. induction P as [|v vs ws P IH|v w vs|vs ws us P1 IH1 P2 IH2]; intros N I F x FF E X; auto.
  - cbn [msum]. f_equal. apply map_ext_in. intros l Hl. apply in_seq0 in Hl. inversion N; subst. apply IH; auto; [intros u Hu; apply I; right; auto|apply okl_set; auto].
  - cbn [msum]. inversion N as [|? ? N1 N2]; subst. inversion N2 as [|? ? N3 N4]; subst.
    assert (Vw : w < n) by (apply I; left; auto). assert (Vv : v < n) by (apply I; right; left; auto).
    rewrite <- (asum_swap _ _ (seq 0 (nl w)) (seq 0 (nl v)) (fun k l => msum vs F (set (set x v l) w k))).
    + f_equal. apply map_ext. intros k. f_equal. apply map_ext. intros l. apply msum_ext_at; auto. intros u. apply set_swap. intros ->. apply N1. left. auto.
    + apply seq_ne; auto.
    + apply seq_ne; auto.
    + intros k l Hk Hl. apply in_seq0 in Hk, Hl. apply msum_fin; auto; [intros u Hu; apply I; right; right; auto|]. apply okl_set; auto. apply okl_set; auto.
  - rewrite IH1 by auto. apply IH2; auto.
    + eapply Permutation_NoDup; eauto.
    + intros u Hu. apply I. eapply Permutation_in; [symmetry; exact P1|auto].
Qed.
(** Sums over equal sets of variables. *)
Lemma msum_set : forall vs ws F x, NoDup vs -> NoDup ws -> (forall u, In u vs <-> In u ws) -> inside vs -> fine F -> ext_at F -> okl x -> msum vs F x = msum ws F x.
Proof. intros vs ws F x N N' H I FF E X. apply msum_perm; auto. apply NoDup_Permutation; auto. Qed.

(** Products of several functions. *)
Definition oprod (l : list T) : T := fold_right op one l.
Lemma oprod_fin : forall l, Forall fin l -> fin (oprod l).
Proof. intros l H. induction H; cbn [oprod fold_right]; [apply (sl_neutral _ _ _ SL)|apply (sl_op _ _ _ SL); auto]. Qed.
Lemma oprod_app : forall l l', Forall fin l -> Forall fin l' -> oprod (l ++ l') = op (oprod l) (oprod l').
Proof.
  intros l l' H H'. induction H as [|a l A H IH]; cbn [oprod fold_right app]; [symmetry; apply (sl_unit _ _ _ SL); apply oprod_fin; auto|].
  fold (oprod (l ++ l')). fold (oprod l). rewrite IH. apply (sl_assoc _ _ _ SL); auto; apply oprod_fin; auto.
Qed.
Lemma oprod_perm : forall l l', Permutation l l' -> Forall fin l -> oprod l = oprod l'.
Proof.
  intros l l' P. induction P as [|c l l' P IH|c d l|l l' l'' P1 IH1 P2 IH2]; intros F; auto.
  - inversion F; subst. cbn [oprod fold_right]. f_equal. apply IH. auto.
  - inversion F as [|? ? F1 F2]; subst. inversion F2; subst. cbn [oprod fold_right]. fold (oprod l). pose proof (oprod_fin l) as O. rewrite !(sl_assoc _ _ _ SL) by auto. f_equal. apply (sl_comm _ _ _ SL); auto.
  - rewrite IH1 by auto. apply IH2; auto. rewrite <- P1. auto.
Qed.

(** Several sums over different variables, times a function that depends on none of them. *)
Record part : Type := mkPart { p_vs : list nat; p_F : (nat -> nat) -> T; p_S : nat -> Prop }.
Definition part_ok (p : part) : Prop := fine (p_F p) /\ inside (p_vs p) /\ only (p_S p) (p_F p).
Lemma msum_parts : forall (ps : list part) S0 G x, fine G -> okl x -> only S0 G -> Forall part_ok ps ->
  (forall p u, In p ps -> S0 u -> ~ In u (p_vs p)) ->
  (ForallOrdPairs (fun p q => (forall u, p_S p u -> ~ In u (p_vs q)) /\ (forall u, p_S q u -> ~ In u (p_vs p))) ps) ->
  op (G x) (oprod (map (fun p => msum (p_vs p) (p_F p) x) ps)) = msum (concat (map p_vs ps)) (fun y => op (G y) (oprod (map (fun p => p_F p y) ps))) x.
Proof.
  induction ps as [|p ps IH]; intros S0 G x FG X O K D0 D; cbn [map oprod fold_right concat msum].
  - reflexivity.
  - inversion K as [|? ? (K1 & K2 & K3) K']; subst. inversion D as [|? ? DP D']; subst.
    assert (FP : forall y, okl y -> Forall fin (map (fun q => p_F q y) ps)).
    { intros y Y. apply Forall_forall. intros t Ht. apply in_map_iff in Ht. destruct Ht as (q & <- & Hq). rewrite Forall_forall in K'. apply K'; auto. }
    assert (FM : forall y, okl y -> Forall fin (map (fun q => msum (p_vs q) (p_F q) y) ps)).
    { intros y Y. apply Forall_forall. intros t Ht. apply in_map_iff in Ht. destruct Ht as (q & <- & Hq). rewrite Forall_forall in K'. destruct (K' q Hq) as (Q1 & Q2 & Q3). apply msum_fin; auto. }
    fold (oprod (map (fun q => msum (p_vs q) (p_F q) x) ps)).
    assert (FG2 : fine (fun y => op (G y) (p_F p y))). { intros y Y. apply (sl_op _ _ _ SL); auto. }
    assert (FO : fine (fun y => oprod (map (fun q => p_F q y) ps))). { intros y Y. apply oprod_fin. auto. }
    assert (IC : inside (concat (map p_vs ps))).
    { intros u Hu. apply in_concat in Hu. destruct Hu as (l & Hl & Hu). apply in_map_iff in Hl. destruct Hl as (q & <- & Hq). rewrite Forall_forall in K'. apply (K' q Hq); auto. }
    rewrite (sl_assoc _ _ _ SL) by (auto; try apply oprod_fin; auto; apply msum_fin; auto).
    rewrite (sl_comm _ _ _ SL (G x)) by (auto; apply msum_fin; auto). rewrite <- (sl_assoc _ _ _ SL) by (auto; try apply oprod_fin; auto; apply msum_fin; auto).
    rewrite (IH S0 G x); auto; [|intros q u Hq Hu; apply D0; auto; right; auto].
    rewrite (msum_prod (p_vs p) (concat (map p_vs ps)) (p_S p) (fun u => S0 u \/ exists q, In q ps /\ p_S q u)); auto.
    + apply msum_ext; auto.
      * intros u Hu. apply in_app_iff in Hu. destruct Hu; auto.
      * intros y Y. fold (oprod (map (fun q => p_F q y) ps)). rewrite (sl_assoc _ _ _ SL) by auto. rewrite (sl_comm _ _ _ SL (p_F p y)) by auto. rewrite <- (sl_assoc _ _ _ SL) by auto. auto.
    + intros y Y. apply (sl_op _ _ _ SL); auto.
    + intros a b E. f_equal; [apply O; intros u Hu; apply E; auto|]. f_equal. apply map_ext_in. intros q Hq. rewrite Forall_forall in K'. apply (K' q Hq). intros u Hu. apply E. right. eauto.
    + intros u Hu Hc. apply in_concat in Hc. destruct Hc as (l & Hl & Hc). apply in_map_iff in Hl. destruct Hl as (q & <- & Hq). rewrite Forall_forall in DP. destruct (DP q Hq) as [DP1 _]. apply (DP1 u Hu Hc).
    + intros u [Hu|(q & Hq & Hu)]; [apply D0; auto; left; auto|]. rewrite Forall_forall in DP. destruct (DP q Hq) as [_ DP2]. apply (DP2 u Hu).
Qed.

(** A sum as an accumulation over all tuples of labels. *)
Fixpoint enum (vs : list nat) : list (list nat) :=
  match vs with
  | [] => [[]]
  | v :: vs => flat_map (fun l => map (cons l) (enum vs)) (seq 0 (nl v))
  end.
Lemma enum_in : forall vs c, In c (enum vs) <-> in_shape (map nl vs) c.
Proof.
  induction vs as [|v vs IH]; intros c; cbn [enum map].
  - split; [intros [<-|[]]; constructor|]. intros H. inversion H. left. auto.
  - rewrite in_flat_map. split.
    + intros (l & Hl & Hc). apply in_map_iff in Hc. destruct Hc as (c' & <- & Hc). apply in_seq0 in Hl. constructor; auto. apply IH. auto.
    + intros H. inversion H as [|l m c' sh Hl Hc]; subst. exists l. split; [apply in_seq0; auto|]. apply in_map. apply IH. auto.
Qed.
Lemma NoDup_flat_cons : forall (ls : list nat) (m : list (list nat)), NoDup ls -> NoDup m -> NoDup (flat_map (fun l => map (cons l) m) ls).
Proof.
  induction ls as [|l ls IH]; intros m N M; cbn [flat_map]; [constructor|]. inversion N; subst.
  assert (NA : forall (p q : list (list nat)), NoDup p -> NoDup q -> (forall a, In a p -> ~ In a q) -> NoDup (p ++ q)).
  { clear. induction p as [|a p IH]; intros q P Q D; auto. inversion P; subst. cbn [app]. constructor; [rewrite in_app_iff; intros [?|?]; auto; apply (D a); auto; left; auto|]. apply IH; auto. intros b Hb. apply D. right. auto. }
  apply NA; auto.
  - apply FinFun.Injective_map_NoDup; auto. intros a b E. congruence.
  - intros a Ha Hb. apply in_map_iff in Ha. destruct Ha as (c & <- & _). apply in_flat_map in Hb. destruct Hb as (l' & Hl' & Hc). apply in_map_iff in Hc. destruct Hc as (c' & E & _). injection E as -> _. auto.
Qed.
Lemma enum_nodup : forall vs, NoDup (enum vs).
Proof. induction vs as [|v vs IH]; cbn [enum]; [repeat constructor; auto|]. apply NoDup_flat_cons; auto. apply seq_NoDup. Qed.
Lemma enum_ne : forall vs, inside vs -> enum vs <> [].
Proof.
  induction vs as [|v vs IH]; intros I; cbn [enum]; [discriminate|]. assert (v < n) by (apply I; left; auto). pose proof (nl_pos v H) as P. destruct (nl v) as [|m]; [lia|]. cbn [seq flat_map].
  assert (enum vs <> []) by (apply IH; intros u Hu; apply I; right; auto). destruct (enum vs); [congruence|discriminate].
Qed.
Lemma okl_override : forall vs c x, NoDup vs -> in_shape (map nl vs) c -> okl x -> okl (override x vs c).
Proof.
  intros vs c x N H X v Hv. destruct (in_dec Nat.eq_dec v vs) as [I|NI]; [apply (override_legal nl vs c x N H); auto|]. rewrite override_out; auto.
Qed.
Lemma asum_flat_map : forall A B (l : list A) (m : A -> list B) (f : B -> T), l <> [] -> (forall a, In a l -> m a <> []) -> (forall a b, In a l -> In b (m a) -> fin (f b)) ->
  asum (map f (flat_map m l)) = asum (map (fun a => asum (map f (m a))) l).
Proof.
  intros A B l m f. induction l as [|a l IH]; intros N M F; [congruence|].
  assert (FM : forall a0, In a0 (a :: l) -> Forall fin (map f (m a0))).
  { intros a0 Ha. apply Forall_forall. intros y Hy. apply in_map_iff in Hy. destruct Hy as (b & <- & Hb). eapply F; eauto. }
  assert (FA : forall a0, In a0 (a :: l) -> fin (asum (map f (m a0)))).
  { intros a0 Ha. apply asum_fin; auto. pose proof (M a0 Ha). destruct (m a0); [congruence|discriminate]. }
  destruct l as [|a' l].
  - cbn [flat_map map]. rewrite app_nil_r. rewrite asum_cons; [reflexivity|apply FA; left; auto].
  - change (flat_map m (a :: a' :: l)) with (m a ++ flat_map m (a' :: l)). rewrite map_app. rewrite asum_app.
    + rewrite IH; [|discriminate|intros; apply M; right; auto|intros a0 b Ha Hb; apply (F a0); [right; auto|auto]].
      change (map (fun a0 => asum (map f (m a0))) (a :: a' :: l)) with ([asum (map f (m a))] ++ map (fun a0 => asum (map f (m a0))) (a' :: l)).
      rewrite asum_app; try discriminate.
      * f_equal. rewrite asum_cons; [reflexivity|apply FA; left; auto].
      * constructor; [apply FA; left; auto|constructor].
      * apply Forall_forall. intros y Hy. apply in_map_iff in Hy. destruct Hy as (z & <- & Hz). apply FA. right. auto.
    + pose proof (M a (or_introl eq_refl)). destruct (m a); [congruence|discriminate].
    + cbn [flat_map]. pose proof (M a' (or_intror (or_introl eq_refl))). destruct (m a'); [congruence|discriminate].
    + apply FM. left. auto.
    + apply Forall_forall. intros y Hy. apply in_map_iff in Hy. destruct Hy as (b & <- & Hb). apply in_flat_map in Hb. destruct Hb as (a0 & Ha & Hb). apply (F a0); [right; auto|auto].
Qed.
Lemma msum_enum : forall vs F x, NoDup vs -> inside vs -> fine F -> ext_at F -> okl x ->
  msum vs F x = asum (map (fun c => F (override x vs c)) (enum vs)).
Proof.
  induction vs as [|v vs IH]; intros F x N I FF E X; cbn [msum enum].
  - cbn [map override]. rewrite asum_cons by auto. reflexivity.
  - inversion N; subst. assert (v < n) by (apply I; left; auto). assert (I' : inside vs) by (intros u Hu; apply I; right; auto).
    rewrite asum_flat_map.
    + f_equal. apply map_ext_in. intros l Hl. apply in_seq0 in Hl. rewrite map_map. rewrite IH; auto; [|apply okl_set; auto]. f_equal. apply map_ext_in. intros c Hc. apply E.
      intros u. cbn [override]. destruct (Nat.eqb_spec u v) as [->|NE].
      * rewrite override_out by auto. unfold set. rewrite Nat.eqb_refl. auto.
      * destruct (in_dec Nat.eq_dec u vs) as [Iu|Nu].
        { apply enum_in in Hc. clear - Iu Hc. revert c Hc. induction vs as [|w vs IH]; intros c Hc; [destruct Iu|]. inversion Hc as [|a b c' sh Ha Hc']; subst. cbn [override]. destruct (Nat.eqb_spec u w); auto. apply IH; auto. destruct Iu; congruence. }
        { rewrite !override_out by auto. unfold set. apply Nat.eqb_neq in NE. rewrite NE. auto. }
    + apply seq_ne; auto.
    + intros l Hl. pose proof (enum_ne vs I'). destruct (enum vs); [congruence|discriminate].
    + intros l c Hl Hc. apply in_map_iff in Hc. destruct Hc as (c' & <- & Hc). apply in_seq0 in Hl. apply enum_in in Hc. apply FF. apply okl_override; auto. constructor; auto.
Qed.
(** The tuples in the order of coord_of. *)
Lemma inside_positive : forall vs, inside vs -> positive (map nl vs).
Proof. intros vs I. apply Forall_forall. intros m Hm. apply in_map_iff in Hm. destruct Hm as (v & <- & Hv). apply nl_pos. auto. Qed.
Lemma tuples_in : forall vs, inside vs -> forall c, In c (tuples nl vs) <-> in_shape (map nl vs) c.
Proof.
  intros vs I c. unfold tuples. rewrite in_map_iff. split.
  - intros (k & <- & _). apply coord_of_in_shape. apply inside_positive. auto.
  - intros H. exists (index_of (map nl vs) c). split; [apply coord_of_index; auto|]. apply in_seq0. apply index_of_lt. auto.
Qed.
Lemma tuples_nodup : forall vs, inside vs -> NoDup (tuples nl vs).
Proof.
  intros vs I. unfold tuples. pose proof (inside_positive vs I) as P. assert (G : forall l, NoDup l -> (forall k, In k l -> k < size_of (map nl vs)) -> NoDup (map (coord_of (map nl vs)) l)).
  { induction l as [|k l IH]; intros N H; cbn [map]; [constructor|]. inversion N; subst. constructor; [|apply IH; auto; intros; apply H; right; auto].
    intros Hk. apply in_map_iff in Hk. destruct Hk as (k' & E & Hk'). assert (k' = k); [|subst; auto].
    rewrite <- (index_of_coord (map nl vs) k') by (auto; apply H; right; auto). rewrite E. apply index_of_coord; auto. apply H. left. auto. }
  apply G; [apply seq_NoDup|]. intros k Hk. apply in_seq0 in Hk. auto.
Qed.
Lemma enum_tuples : forall vs, inside vs -> Permutation (enum vs) (tuples nl vs).
Proof. intros vs I. apply NoDup_Permutation; [apply enum_nodup|apply tuples_nodup; auto|]. intros c. rewrite enum_in, (tuples_in vs I). tauto. Qed.
Lemma msum_values : forall vs F x, NoDup vs -> inside vs -> fine F -> ext_at F -> okl x ->
  msum vs F x = accumulate_values T ac (a_neutral ACC) (values_over T nl vs F x).
Proof.
  intros vs F x N I FF E X. rewrite msum_enum by auto. unfold values_over. apply asum_perm.
  - apply Permutation_map. apply enum_tuples. auto.
  - apply Forall_forall. intros y Hy. apply in_map_iff in Hy. destruct Hy as (c & <- & Hc). apply FF. apply okl_override; auto. apply enum_in. auto.
Qed.
End Sum.
Arguments p_vs {T}. Arguments p_F {T}. Arguments p_S {T}. Arguments mkPart {T}.
