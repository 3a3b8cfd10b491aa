(** Proofs about PmModel.v: the moves of solveBinaryKL. *)
From Coq Require Import QArith Qcanon Permutation.
From Verif Require Import Base Values GmView GmViewSpec ConstraintModel DualDecompModel DualDecompProofs HoeProofs AStarSearch FunctionBaseModel PmModel PmSpec.
Import DualDecompProofs.
Open Scope nat_scope.

Lemma mem_In : forall v s, mem v s = true <-> In v s.
Proof. intros v s. unfold mem. rewrite existsb_exists. split; [intros (x & I & E); apply Nat.eqb_eq in E; subst; exact I|intros I; exists v; rewrite Nat.eqb_refl; auto]. Qed.
Lemma mem_false : forall v s, mem v s = false <-> ~ In v s.
Proof. intros v s. rewrite <- mem_In. destruct (mem v s); split; congruence. Qed.
Lemma Qc_lt_true : forall a b, Qc_lt a b = true <-> (a < b)%Qc.
Proof. intros a b. unfold Qc_lt. destruct (Qclt_le_dec a b) as [H|H]; split; intros X; auto; try discriminate. exfalso. eapply Qcle_not_lt; eauto. Qed.
Lemma Qc_lt_false : forall a b, Qc_lt a b = false <-> (b <= a)%Qc.
Proof. intros a b. unfold Qc_lt. destruct (Qclt_le_dec a b) as [H|H]; split; intros X; auto; try discriminate. exfalso. eapply Qcle_not_lt; eauto. Qed.

Lemma nth_map_seq0 : forall X (f : nat -> X) m i d, i < m -> nth i (map f (seq 0 m)) d = f i.
Proof. intros X f m i d H. rewrite (nth_indep _ d (f 0)) by (rewrite map_length, seq_length; exact H). rewrite map_nth. rewrite seq_nth by exact H. reflexivity. Qed.

Section Kl.
Variable order : list nat -> list nat.
Hypothesis ORD : iterates order.
Variable gm : gmv Qc.
Notation n := (length (v_labels gm)).
Variable G : graph.
Variable es : list (nat * nat * nat).
Definition wt (e : nat) : Qc := nth e (edgeWeight G) 0%Qc.
(** The neighbours of a variable, in terms of the edges. *)
Definition nb (v : nat) : list (nat * nat) :=
  flat_map (fun '(a, b, e) => if a =? v then [(b, e)] else if b =? v then [(a, e)] else []) es.
Definition edges_ok : Prop := Forall (fun '(a, b, e) => a < b /\ b < n /\ e < length (edgeWeight G)) es.
Definition graph_ok : Prop := edges_ok /\ neighbours G = map nb (seq 0 n).
Hypothesis GO : graph_ok.

Lemma rd_nb : forall v, v < n -> rd (neighbours G) v = Ret (nb v).
Proof.
  intros v H. destruct GO as [_ E]. rewrite E. apply rd_Ret. rewrite nth_error_map. rewrite (nth_error_nth' _ 0) by (rewrite seq_length; exact H). rewrite seq_nth by exact H. reflexivity.
Qed.
Lemma nb_ok : forall v u e, In (u, e) (nb v) -> u <> v /\ u < n /\ e < length (edgeWeight G).
Proof.
  intros v u e I. unfold nb in I. apply in_flat_map in I. destruct I as ([[a b] d] & I & J). destruct GO as [EO _]. unfold edges_ok in EO. rewrite Forall_forall in EO. specialize (EO _ I). cbn in EO.
  destruct (Nat.eqb_spec a v); [|destruct (Nat.eqb_spec b v)]; cbn in J; [destruct J as [J|[]]|destruct J as [J|[]]|destruct J]; inversion J; subst; lia.
Qed.
Lemma nb_sym : forall v u e, In (u, e) (nb v) <-> In (v, e) (nb u).
Proof.
  assert (X : forall v u e, In (u, e) (nb v) -> In (v, e) (nb u)).
  { intros v u e I. unfold nb in *. apply in_flat_map in I. destruct I as ([[a b] d] & I & J). apply in_flat_map. exists (a, b, d). split; [exact I|].
    destruct GO as [EO _]. unfold edges_ok in EO. rewrite Forall_forall in EO. specialize (EO _ I). cbn in EO.
    destruct (Nat.eqb_spec a v); [|destruct (Nat.eqb_spec b v)]; cbn in J; [destruct J as [J|[]]|destruct J as [J|[]]|destruct J]; inversion J; subst.
    - destruct (Nat.eqb_spec v u); [lia|]. rewrite Nat.eqb_refl. left. reflexivity.
    - rewrite Nat.eqb_refl. left. reflexivity. }
  intros. split; apply X.
Qed.
Lemma nb_sum : forall f v, qsum f (nb v) = qsum (fun '(a, b, e) => if a =? v then f (b, e) else if b =? v then f (a, e) else 0%Qc) es.
Proof.
  intros f v. unfold nb. induction es as [|[[a b] e] l IH]; [reflexivity|]. cbn [flat_map]. rewrite qsum_app, qsum_cons, IH. f_equal.
  destruct (a =? v); [|destruct (b =? v)]; rewrite ?qsum_cons, ?qsum_nil; ring.
Qed.
Lemma es_sum : forall f g, (forall a b e, a < b -> b < n -> e < length (edgeWeight G) -> f (a, b, e) = g (a, b, e)) -> qsum f es = qsum g es.
Proof. intros f g H. apply qsum_ext. intros [[a b] e] I. destruct GO as [EO _]. unfold edges_ok in EO. rewrite Forall_forall in EO. specialize (EO _ I). cbn in EO. apply H; lia. Qed.

(** The cost of a colouring, and what a move changes. *)
Definition cost (c : nat -> nat) : Qc := qsum (fun '(a, b, e) => if c a =? c b then 0%Qc else wt e) es.
Definition recol (c : nat -> nat) (v k : nat) : nat -> nat := fun u => if u =? v then k else c u.
Definition gain (c : nat -> nat) (v k : nat) : Qc := qsum (fun '(u, e) => if c u =? c v then wt e else if c u =? k then (- wt e)%Qc else 0%Qc) (nb v).
Lemma cost_same : forall c c', (forall u v, u < n -> v < n -> (c u = c v <-> c' u = c' v)) -> cost c = cost c'.
Proof.
  intros c c' H. apply es_sum. intros a b e L1 L2 _. specialize (H a b ltac:(lia) L2). destruct (Nat.eqb_spec (c a) (c b)), (Nat.eqb_spec (c' a) (c' b)); try reflexivity; tauto.
Qed.
Lemma cost_ext : forall c c', (forall u, u < n -> c u = c' u) -> cost c = cost c'.
Proof. intros c c' H. apply cost_same. intros u v Hu Hv. rewrite !H by assumption. reflexivity. Qed.
Lemma recol_cost : forall c v k, k <> c v -> cost (recol c v k) = (cost c + gain c v k)%Qc.
Proof.
  intros c v k NE. unfold cost, gain. rewrite nb_sum, <- qsum_plus. apply es_sum. intros a b e L _ _. unfold recol.
  destruct (Nat.eqb_spec a v) as [->|Na]; destruct (Nat.eqb_spec b v) as [->|Nb]; try lia; try ring.
  - destruct (Nat.eqb_spec k (c b)) as [Q1|Q1], (Nat.eqb_spec (c v) (c b)) as [Q2|Q2], (Nat.eqb_spec (c b) (c v)) as [Q3|Q3], (Nat.eqb_spec (c b) k) as [Q4|Q4]; try congruence; ring.
  - destruct (Nat.eqb_spec (c a) k) as [Q1|Q1], (Nat.eqb_spec (c a) (c v)) as [Q2|Q2]; try congruence; ring.
Qed.
(** Two sets are the variables of two colours. *)
Definition col (c : nat -> nat) (k : nat) (s : list nat) : Prop := forall v, In v s <-> v < n /\ c v = k.
Lemma col_mem : forall c k s v, col c k s -> v < n -> mem v s = (c v =? k).
Proof.
  intros c k s v H L. destruct (mem v s) eqn:E; symmetry.
  - apply mem_In in E. apply H in E. apply Nat.eqb_eq. lia.
  - apply mem_false in E. apply Nat.eqb_neq. intros X. apply E. apply H. auto.
Qed.
Lemma gain_ok : forall c P Q mine other v, P <> Q -> col c P mine -> col c Q other -> In v mine -> pm_gain G mine other v = Ret (gain c v Q).
Proof.
  intros c P Q mine other v PQ CM CO I. pose proof (proj1 (CM v) I) as [L CV]. unfold pm_gain. rewrite (rd_nb v L). cbn [bind].
  assert (X : forall m, (forall u e, In (u, e) m -> u < n /\ e < length (edgeWeight G)) -> forall e0 i0, exists e1 i1,
    foldM (fun '(E_a, I_a) '(node2, e) => weight <- rd (edgeWeight G) e ;; Ret (if mem node2 mine then (E_a, (I_a + weight)%Qc) else if mem node2 other then ((E_a + weight)%Qc, I_a) else (E_a, I_a))) m (e0, i0) = Ret (e1, i1) /\
    (i1 - e1 = i0 - e0 + qsum (fun '(u, e) => if c u =? P then wt e else if c u =? Q then - wt e else 0) m)%Qc).
  { induction m as [|[u e] m IH]; intros H e0 i0; cbn [foldM]. { exists e0, i0. split; [reflexivity|]. rewrite qsum_nil. ring. }
    destruct (H u e (or_introl eq_refl)) as [Lu Le]. rewrite (rd_nth _ _ e 0%Qc) by exact Le. cbn [bind]. change (nth e (edgeWeight G) 0%Qc) with (wt e).
    rewrite (col_mem c P mine u CM Lu), (col_mem c Q other u CO Lu). rewrite qsum_cons.
    assert (H' : forall u e, In (u, e) m -> u < n /\ e < length (edgeWeight G)) by (intros; apply H; right; assumption).
    destruct (c u =? P); [|destruct (c u =? Q)].
    - destruct (IH H' e0 (i0 + wt e)%Qc) as (e1 & i1 & E1 & S1). exists e1, i1. split; [exact E1|]. rewrite S1. ring.
    - destruct (IH H' (e0 + wt e)%Qc i0) as (e1 & i1 & E1 & S1). exists e1, i1. split; [exact E1|]. rewrite S1. ring.
    - destruct (IH H' e0 i0) as (e1 & i1 & E1 & S1). exists e1, i1. split; [exact E1|]. rewrite S1. ring. }
  destruct (X (nb v)) with (e0 := 0%Qc) (i0 := 0%Qc) as (e1 & i1 & E1 & S1). { intros u e J. apply nb_ok in J. tauto. }
  rewrite E1. cbn [bind]. f_equal. transitivity (i1 - e1)%Qc; [ring|]. rewrite S1. unfold gain. rewrite CV. ring.
Qed.
Lemma order_In : forall v s, In v (order s) <-> In v s.
Proof. intros v s. split; apply Permutation_in; [apply ORD|apply Permutation_sym, ORD]. Qed.
Section Two.
Variables A B : nat.
Hypothesis AB : A <> B.
Definition ab (c : nat -> nat) (v : nat) : Prop := c v = A \/ c v = B.
Definition oth (k : nat) : nat := if k =? A then B else A.
Definition flip (c : nat -> nat) (v : nat) : nat -> nat := recol c v (oth (c v)).
Definition FG (c : nat -> nat) (v : nat) : Qc := gain c v (oth (c v)).
Lemma oth_neq : forall c v, ab c v -> oth (c v) <> c v.
Proof. intros c v [H|H]; rewrite H; unfold oth; [rewrite Nat.eqb_refl; lia|destruct (Nat.eqb_spec B A); lia]. Qed.
Lemma flip_cost : forall c v, ab c v -> cost (flip c v) = (cost c + FG c v)%Qc.
Proof. intros c v H. apply recol_cost. apply oth_neq. exact H. Qed.
Lemma flip_same : forall c v, ab c v -> ab (flip c v) v.
Proof. intros c v H. unfold ab, flip, recol. rewrite Nat.eqb_refl. unfold oth. destruct (c v =? A); auto. Qed.
Lemma flip_other : forall c u v, v <> u -> flip c u v = c v.
Proof. intros c u v H. unfold flip, recol. destruct (Nat.eqb_spec v u); [contradiction|reflexivity]. Qed.
Lemma flip_gain : forall c u v, v <> u -> ab c u -> ab c v ->
  FG (flip c u) v = (FG c v + qsum (fun '(x, e) => if x =? v then (if c v =? c u then - ((1 + 1) * wt e) else (1 + 1) * wt e) else 0) (nb u))%Qc.
Proof.
  intros c u v NE HU HV. unfold FG, gain. rewrite (flip_other c u v NE). rewrite !nb_sum, <- qsum_plus. apply es_sum. intros a b e L _ _.
  assert (FU : flip c u u = oth (c u)) by (unfold flip, recol; rewrite Nat.eqb_refl; reflexivity).
  assert (FO : forall x, x <> u -> flip c u x = c x) by (intros; apply flip_other; assumption).
  assert (K : forall X Y : nat, (X = A \/ X = B) -> (Y = A \/ Y = B) -> (if oth X =? Y then wt e else if oth X =? oth Y then (- wt e)%Qc else 0%Qc) =
    ((if X =? Y then wt e else if X =? oth Y then (- wt e) else 0) + (if Y =? X then - ((1 + 1) * wt e) else (1 + 1) * wt e))%Qc).
  { intros X Y HX HY. assert (OA : oth A = B) by (unfold oth; rewrite Nat.eqb_refl; reflexivity). assert (OB : oth B = A) by (unfold oth; destruct (Nat.eqb_spec B A); [congruence|reflexivity]).
    assert (E1 : (A =? B) = false) by (apply Nat.eqb_neq; lia). assert (E2 : (B =? A) = false) by (apply Nat.eqb_neq; lia).
    destruct HX as [->| ->], HY as [->| ->]; rewrite ?OA, ?OB, ?E1, ?E2, ?Nat.eqb_refl; ring. }
  destruct (Nat.eqb_spec a v) as [->|Na], (Nat.eqb_spec b v) as [->|Nb]; try lia.
  - destruct (Nat.eqb_spec v u); [contradiction|]. destruct (Nat.eqb_spec b u) as [->|Nu].
    + rewrite FU. rewrite (K (c u) (c v) HU HV). reflexivity.
    + rewrite FO by exact Nu. ring.
  - destruct (Nat.eqb_spec a u) as [->|Nu].
    + rewrite FU. rewrite (K (c u) (c v) HU HV). reflexivity.
    + rewrite FO by exact Nu. destruct (Nat.eqb_spec v u); [contradiction|]. ring.
  - destruct (Nat.eqb_spec a u), (Nat.eqb_spec b u); rewrite ?Nat.eqb_refl; try ring.
Qed.

Variables s0 s1 : list nat.
Variable c0 : nat -> nat.
Hypothesis C0 : col c0 A s0.
Hypothesis C1 : col c0 B s1.
Lemma in_ab : forall v, In v s0 \/ In v s1 <-> v < n /\ ab c0 v.
Proof. intros v. rewrite (C0 v), (C1 v). unfold ab. tauto. Qed.
Lemma fill_ok : forall P Q mine other l D, P <> Q -> col c0 P mine -> col c0 Q other -> (forall v, In v l -> In v mine) -> length D = n ->
  exists D', foldM (fun D v => d <- pm_gain G mine other v ;; wr D v d) l D = Ret D' /\ length D' = n /\ forall v, nth v D' 0%Qc = if mem v l then gain c0 v Q else nth v D 0%Qc.
Proof.
  intros P Q mine other l D PQ CM CO. revert D. induction l as [|a l IH]; intros D HI LD; cbn [foldM]; [exists D; auto|].
  rewrite (gain_ok c0 P Q mine other a PQ CM CO (HI a (or_introl eq_refl))). cbn [bind]. pose proof (proj1 (CM a) (HI a (or_introl eq_refl))) as [L _].
  rewrite wr_Ret by lia. cbn [bind]. destruct (IH (upd D a (gain c0 a Q))) as (D' & E & LD' & V); [intros; apply HI; right; assumption|rewrite length_upd; exact LD|].
  exists D'. split; [exact E|]. split; [exact LD'|]. intros v. rewrite V. unfold mem. cbn [existsb]. destruct (Nat.eqb_spec v a) as [->|NE]; cbn [orb].
  - destruct (existsb (Nat.eqb a) l); [reflexivity|]. apply nth_upd_eq. lia.
  - destruct (existsb (Nat.eqb v) l); [reflexivity|]. apply nth_upd_neq. auto.
Qed.
Lemma gains_ok : exists D, pm_gains order gm G s0 s1 = Ret D /\ length D = n /\ forall v, In v s0 \/ In v s1 -> nth v D 0%Qc = FG c0 v.
Proof.
  unfold pm_gains. destruct (fill_ok A B s0 s1 (order s0) (repeat 0%Qc n) AB C0 C1) as (D1 & E1 & L1 & V1); [intros v; apply order_In|apply repeat_length|]. rewrite E1. cbn [bind].
  destruct (fill_ok B A s1 s0 (order s1) D1 ltac:(auto) C1 C0) as (D2 & E2 & L2 & V2); [intros v; apply order_In|exact L1|]. exists D2. split; [exact E2|]. split; [exact L2|].
  intros v I. rewrite V2, V1. unfold FG, oth. destruct (mem v (order s1)) eqn:M1.
  - apply mem_In, order_In, C1 in M1. destruct M1 as [_ ->]. destruct (Nat.eqb_spec B A); [congruence|reflexivity].
  - apply mem_false in M1. rewrite order_In in M1. destruct I as [I|I]; [|contradiction]. assert (M0 : mem v (order s0) = true) by (apply mem_In, order_In; exact I). rewrite M0.
    apply C0 in I. destruct I as [_ ->]. rewrite Nat.eqb_refl. reflexivity.
Qed.

(** What the selection finds. *)
Lemma select_ok : forall D moved l b, length D = n -> length moved = n -> (forall v, In v l -> v < n) ->
  exists b', foldM (fun b v => mv <- rd moved v ;; d <- rd D v ;; Ret (if mv : bool then b else match b with None => Some (d, v) | Some (i, _) => if Qc_lt d i then Some (d, v) else b end)) l b = Ret b' /\
  match b' with
  | None => b = None /\ forall u, In u l -> nth u moved false = true
  | Some (d, v) => (b = Some (d, v) \/ In v l /\ nth v moved false = false /\ d = nth v D 0%Qc) /\
      (forall u, In u l -> nth u moved false = false -> (d <= nth u D 0)%Qc) /\ match b with None => True | Some (i, _) => (d <= i)%Qc end
  end.
Proof.
  intros D moved l b LD LM. revert b. induction l as [|a l IH]; intros b HI; cbn [foldM].
  { exists b. split; [reflexivity|]. destruct b as [[d v]|]; [|split; [reflexivity|intros u []]]. split; [left; reflexivity|]. split; [intros u []|apply Qcle_refl]. }
  pose proof (HI a (or_introl eq_refl)) as La. rewrite (rd_nth _ moved a false) by lia. rewrite (rd_nth _ D a 0%Qc) by lia. cbn [bind].
  assert (HI' : forall v, In v l -> v < n) by (intros; apply HI; right; assumption).
  destruct (nth a moved false) eqn:MA.
  - destruct (IH b HI') as (b' & E & P). exists b'. split; [exact E|]. destruct b' as [[d v]|].
    + destruct P as (P1 & P2 & P3). split; [destruct P1 as [P1|P1]; [left; exact P1|right; split; [right; tauto|tauto]]|]. split; [|exact P3]. intros u [<-|I] U; [congruence|auto].
    + destruct P as [P1 P2]. split; [exact P1|]. intros u [<-|I]; auto.
  - destruct b as [[i w]|].
    + destruct (Qc_lt (nth a D 0%Qc) i) eqn:Q.
      * apply Qc_lt_true in Q. destruct (IH (Some (nth a D 0%Qc, a)) HI') as (b' & E & P). exists b'. split; [exact E|]. destruct b' as [[d v]|]; [|destruct P as [P _]; discriminate].
        destruct P as (P1 & P2 & P3). split.
        { right. destruct P1 as [P1|P1]; [inversion P1; subst; split; [left; reflexivity|auto]|split; [right; tauto|tauto]]. }
        split; [intros u [<-|I] U; [exact P3|auto]|]. apply Qclt_le_weak. eapply Qcle_lt_trans; [exact P3|exact Q].
      * apply Qc_lt_false in Q. destruct (IH (Some (i, w)) HI') as (b' & E & P). exists b'. split; [exact E|]. destruct b' as [[d v]|]; [|destruct P as [P _]; discriminate].
        destruct P as (P1 & P2 & P3). split; [destruct P1 as [P1|P1]; [left; exact P1|right; split; [right; tauto|tauto]]|]. split; [|exact P3]. intros u [<-|I] U; [eapply Qcle_trans; [exact P3|exact Q]|auto].
    + destruct (IH (Some (nth a D 0%Qc, a)) HI') as (b' & E & P). exists b'. split; [exact E|]. destruct b' as [[d v]|]; [|destruct P as [P _]; discriminate].
      destruct P as (P1 & P2 & P3). split.
      { right. destruct P1 as [P1|P1]; [inversion P1; subst; split; [left; reflexivity|auto]|split; [right; tauto|tauto]]. }
      split; [intros u [<-|I] U; [exact P3|auto]|exact Logic.I].
Qed.
Lemma select_two : forall D moved, length D = n -> length moved = n ->
  exists b, (b <- pm_select order D moved s0 None ;; pm_select order D moved s1 b) = Ret b /\
  match b with
  | None => forall u, u < n -> ab c0 u -> nth u moved false = true
  | Some (d, v) => v < n /\ ab c0 v /\ nth v moved false = false /\ d = nth v D 0%Qc /\ forall u, u < n -> ab c0 u -> nth u moved false = false -> (d <= nth u D 0)%Qc
  end.
Proof.
  intros D moved LD LM. unfold pm_select.
  destruct (select_ok D moved (order s0) None LD LM) as (b1 & E1 & P1). { intros v I. apply order_In, C0 in I. tauto. } rewrite E1. cbn [bind].
  destruct (select_ok D moved (order s1) b1 LD LM) as (b2 & E2 & P2). { intros v I. apply order_In, C1 in I. tauto. } exists b2. split; [exact E2|].
  destruct b2 as [[d v]|].
  - destruct P2 as (Q1 & Q2 & Q3). destruct Q1 as [->|(I & M & ->)].
    + destruct P1 as (R1 & R2 & _). destruct R1 as [R1|(I & M & ->)]; [discriminate|]. rewrite order_In in I. pose proof (proj1 (in_ab v) (or_introl I)) as [L Av].
      split; [exact L|]. split; [exact Av|]. split; [exact M|]. split; [reflexivity|]. intros u Lu Au Mu. destruct (proj2 (in_ab u) (conj Lu Au)) as [J|J]; [apply R2|apply Q2]; auto; apply order_In; exact J.
    + rewrite order_In in I. pose proof (proj1 (in_ab v) (or_intror I)) as [L Av].
      split; [exact L|]. split; [exact Av|]. split; [exact M|]. split; [reflexivity|]. intros u Lu Au Mu. destruct (proj2 (in_ab u) (conj Lu Au)) as [J|J]; [|apply Q2; [apply order_In; exact J|exact Mu]].
      apply order_In in J. destruct b1 as [[i w]|]; [eapply Qcle_trans; [exact Q3|]; apply P1; assumption|]. destruct P1 as [_ P1]. rewrite (P1 u J) in Mu. discriminate.
  - destruct P2 as [-> P2]. destruct P1 as [_ P1]. intros u Lu Au. destruct (proj2 (in_ab u) (conj Lu Au)) as [J|J]; apply order_In in J; auto.
Qed.
Definition flips (ns : list nat) (c : nat -> nat) : nat -> nat := fold_left flip ns c.
Lemma flips_app : forall l1 l2 c, flips (l1 ++ l2) c = flips l2 (flips l1 c).
Proof. intros. apply fold_left_app. Qed.
Lemma flips_out : forall ns c v, ~ In v ns -> flips ns c v = c v.
Proof. induction ns as [|a ns IH]; intros c v H; [reflexivity|]. cbn. rewrite IH by (intros X; apply H; right; exact X). apply flip_other. intros ->. apply H. left. reflexivity. Qed.
Lemma flip_ab : forall c u v, ab c v -> ab (flip c u) v.
Proof. intros c u v H. destruct (Nat.eq_dec v u) as [->|NE]; [apply flip_same; exact H|]. unfold ab. rewrite flip_other by exact NE. exact H. Qed.
Lemma flips_ab : forall ns c v, ab c v -> ab (flips ns c) v.
Proof. induction ns as [|a ns IH]; intros c v H; [exact H|]. cbn. apply IH. apply flip_ab. exact H. Qed.
(** The state of the greedy sequence. *)
Record KInv (s : kl) : Prop := {
  ki_D : length (kl_D s) = n;
  ki_moved : length (kl_moved s) = n;
  ki_nodes : forall v, In v (kl_nodes s) -> v < n /\ ab c0 v;
  ki_mv : forall v, v < n -> (nth v (kl_moved s) false = true <-> In v (kl_nodes s));
  ki_sums : kl_sums s = map (fun i => cost (flips (firstn i (kl_nodes s)) c0) - cost c0)%Qc (seq 0 (S (length (kl_nodes s))));
  ki_best : kl_best s <= length (kl_nodes s) /\ forall i, i <= length (kl_nodes s) -> (nth (kl_best s) (kl_sums s) 0 <= nth i (kl_sums s) 0)%Qc;
  ki_val : forall v, v < n -> ab c0 v -> ~ In v (kl_nodes s) -> nth v (kl_D s) 0%Qc = FG (flips (kl_nodes s) c0) v;
  ki_first : forall a r, kl_nodes s = a :: r -> forall v, v < n -> ab c0 v -> (FG c0 a <= FG c0 v)%Qc }.
Lemma update_ok : forall my m D, (forall u e, In (u, e) m -> u < n /\ e < length (edgeWeight G)) -> length D = n ->
  exists D', foldM (pm_update G my) m D = Ret D' /\ length D' = n /\
    forall v, v < n -> nth v D' 0%Qc = (nth v D 0 + qsum (fun '(x, e) => if x =? v then (if mem x my then - ((1 + 1) * wt e) else (1 + 1) * wt e) else 0) m)%Qc.
Proof.
  intros my. induction m as [|[u e] m IH]; intros D H LD; cbn [foldM]. { exists D. split; [reflexivity|]. split; [exact LD|]. intros v _. rewrite qsum_nil. ring. }
  destruct (H u e (or_introl eq_refl)) as [Lu Le]. unfold pm_update at 1. rewrite (rd_nth _ _ e 0%Qc) by exact Le. cbn [bind]. change (nth e (edgeWeight G) 0%Qc) with (wt e). rewrite (rd_nth _ D u 0%Qc) by lia. cbn [bind].
  rewrite wr_Ret by lia. cbn [bind]. destruct (IH (upd D u (if mem u my then (nth u D 0 - (1 + 1) * wt e)%Qc else (nth u D 0 + (1 + 1) * wt e)%Qc))) as (D' & E & LD' & V); [intros; apply H; right; assumption|rewrite length_upd; exact LD|].
  exists D'. split; [exact E|]. split; [exact LD'|]. intros v Hv. rewrite V by exact Hv. rewrite qsum_cons. destruct (Nat.eqb_spec u v) as [->|NE].
  - rewrite nth_upd_eq by lia. destruct (mem v my); ring.
  - rewrite nth_upd_neq by exact NE. ring.
Qed.
Lemma step_ok : forall s v, KInv s -> v < n -> ab c0 v -> nth v (kl_moved s) false = false ->
  (forall u, u < n -> ab c0 u -> nth u (kl_moved s) false = false -> (nth v (kl_D s) 0 <= nth u (kl_D s) 0)%Qc) ->
  exists s', pm_step G s0 s1 s (nth v (kl_D s) 0%Qc) v = Ret s' /\ KInv s' /\ kl_nodes s' = kl_nodes s ++ [v].
Proof.
  intros s v K L AV MV MIN. destruct K as [KD KM KN KMV KS [KB1 KB2] KV KF]. unfold pm_step. rewrite wr_Ret by lia. cbn [bind].
  assert (NI : ~ In v (kl_nodes s)) by (rewrite <- KMV by exact L; congruence).
  set (ns := kl_nodes s) in *. assert (LS : length (kl_sums s) = S (length ns)) by (rewrite KS, map_length, seq_length; reflexivity).
  assert (NS : forall i, i <= length ns -> nth i (kl_sums s) 0%Qc = (cost (flips (firstn i ns) c0) - cost c0)%Qc).
  { intros i Hi. rewrite KS. apply (nth_map_seq0 _ (fun i => cost (flips (firstn i ns) c0) - cost c0)%Qc). lia. }
  rewrite (rd_nth _ (kl_sums s) _ 0%Qc) by lia. cbn [bind]. replace (length (kl_sums s) - 1) with (length ns) by lia. rewrite (NS (length ns)) by lia. rewrite firstn_all. rewrite (KV v L AV NI).
  set (sum := (cost (flips ns c0) - cost c0 + FG (flips ns c0) v)%Qc).
  assert (SE : sum = (cost (flips (ns ++ [v]) c0) - cost c0)%Qc). { unfold sum. rewrite flips_app. cbn [flips fold_left]. rewrite flip_cost by (apply flips_ab; exact AV). ring. }
  rewrite (rd_nth _ _ (kl_best s) 0%Qc) by (rewrite app_length; lia). cbn [bind]. rewrite app_nth1 by lia. rewrite (rd_nb v L). cbn [bind].
  destruct (update_ok (if mem v s0 then s0 else s1) (nb v) (kl_D s)) as (D' & ED & LD & VD); [intros u e J; apply nb_ok in J; tauto|exact KD|]. rewrite ED. cbn [bind].
  eexists. split; [reflexivity|]. split; [|reflexivity]. constructor; cbn [kl_D kl_moved kl_nodes kl_sums kl_best].
  - exact LD.
  - rewrite length_upd. exact KM.
  - intros u I. apply in_app_or in I. destruct I as [I|[<-|[]]]; auto.
  - intros u Hu. destruct (Nat.eq_dec u v) as [->|NE].
    + rewrite nth_upd_eq by lia. split; [intros _; apply in_or_app; right; left; reflexivity|reflexivity].
    + rewrite nth_upd_neq by auto. rewrite KMV by exact Hu. rewrite in_app_iff. cbn. intuition congruence.
  - rewrite app_length. cbn [length]. rewrite Nat.add_1_r. rewrite (seq_S (S (length ns))), map_app. cbn [map plus]. f_equal.
    + rewrite KS. apply map_ext_in. intros i I. apply in_seq in I. rewrite firstn_app. replace (i - length ns) with 0 by lia. cbn [firstn]. rewrite app_nil_r. reflexivity.
    + rewrite SE. rewrite firstn_all2 by (rewrite app_length; cbn; lia). reflexivity.
  - assert (LE : forall i, i <= length ns -> nth i (kl_sums s ++ [sum]) 0%Qc = nth i (kl_sums s) 0%Qc) by (intros i Hi; apply app_nth1; lia).
    assert (LL : nth (S (length ns)) (kl_sums s ++ [sum]) 0%Qc = sum) by (rewrite app_nth2 by lia; replace (S (length ns) - length (kl_sums s)) with 0 by lia; reflexivity).
    destruct (Qc_lt sum (nth (kl_best s) (kl_sums s) 0%Qc)) eqn:Q.
    + apply Qc_lt_true in Q. replace (length (kl_sums s ++ [sum]) - 1) with (S (length ns)) by (rewrite app_length; cbn; lia). rewrite app_length. cbn [length]. split; [lia|]. intros i Hi. rewrite LL.
      destruct (Nat.eq_dec i (S (length ns))) as [->|NE]; [rewrite LL; apply Qcle_refl|]. rewrite LE by lia. apply Qclt_le_weak. eapply Qclt_le_trans; [exact Q|]. apply KB2. lia.
    + apply Qc_lt_false in Q. rewrite app_length. cbn [length]. split; [lia|]. intros i Hi. rewrite (LE (kl_best s) KB1).
      destruct (Nat.eq_dec i (S (length ns))) as [->|NE]; [rewrite LL; exact Q|]. rewrite LE by lia. apply KB2. lia.
  - intros u Hu AU NU. rewrite in_app_iff in NU. cbn in NU. assert (UV : u <> v) by (intros ->; tauto). assert (UN : ~ In u ns) by tauto.
    rewrite VD by exact Hu. rewrite (KV u Hu AU UN). rewrite flips_app. cbn [flips fold_left]. change (fold_left flip ns c0) with (flips ns c0). rewrite (flip_gain (flips ns c0) v u UV (flips_ab ns c0 v AV) (flips_ab ns c0 u AU)).
    f_equal. apply qsum_ext. intros [x e] I. destruct (Nat.eqb_spec x u) as [->|]; [|reflexivity]. rewrite !flips_out by assumption.
    assert (ME : mem u (if mem v s0 then s0 else s1) = (c0 u =? c0 v)).
    { rewrite (col_mem c0 A s0 v C0 L). destruct (Nat.eqb_spec (c0 v) A) as [E|E]; [rewrite E; apply col_mem; assumption|]. destruct AV as [AV|AV]; [contradiction|]. rewrite AV. apply col_mem; assumption. }
    rewrite ME. reflexivity.
  - intros a r E u Hu AU. destruct ns as [|b ns'] eqn:EN.
    + injection E as <- _. change (flips [] c0) with c0 in KV. rewrite <- (KV v L AV NI), <- (KV u Hu AU (fun x => x)). apply MIN; [exact Hu|exact AU|]. destruct (nth u (kl_moved s) false) eqn:M; [|reflexivity]. exfalso. apply KMV in M; [destruct M|exact Hu].
    + injection E as <- _. apply (KF b ns' eq_refl u Hu AU).
Qed.
Lemma sequence_ok : forall k s, KInv s -> exists s', pm_sequence order G k s0 s1 s = Ret s' /\ KInv s' /\ (0 < k -> kl_nodes s' = [] -> forall v, v < n -> ~ ab c0 v) /\ (kl_nodes s' = [] -> kl_nodes s = []).
Proof.
  induction k as [|k IH]; intros s K; cbn [pm_sequence]. { exists s. split; [reflexivity|]. split; [exact K|]. split; [lia|auto]. }
  destruct (select_two (kl_D s) (kl_moved s) (ki_D _ K) (ki_moved _ K)) as (b & E & P).
  assert (Y : forall X (f : option (Qc * nat) -> outcome X), (b1 <- pm_select order (kl_D s) (kl_moved s) s0 None ;; b2 <- pm_select order (kl_D s) (kl_moved s) s1 b1 ;; f b2) = bind (b1 <- pm_select order (kl_D s) (kl_moved s) s0 None ;; pm_select order (kl_D s) (kl_moved s) s1 b1) f).
  { intros X f. rewrite bind_assoc. reflexivity. }
  rewrite Y, E. cbn [bind]. destruct b as [[d v]|].
  - destruct P as (L & AV & MV & -> & MIN). destruct (step_ok s v K L AV MV MIN) as (s1' & E1 & K1 & N1). rewrite E1. cbn [bind]. destruct (IH s1' K1) as (s2 & E2 & K2 & _ & P2). exists s2. split; [exact E2|]. split; [exact K2|].
    assert (X : kl_nodes s2 <> []) by (intros X; apply P2 in X; rewrite N1 in X; destruct (kl_nodes s); discriminate). split; [intros _ X'; contradiction|intros X'; contradiction].
  - exists s. split; [reflexivity|]. split; [exact K|]. split; [|auto]. intros _ EN v Hv AV. pose proof (P v Hv AV) as M. apply (ki_mv _ K) in M; [|exact Hv]. rewrite EN in M. destruct M.
Qed.
Lemma start_ok : forall D, length D = n -> (forall v, In v s0 \/ In v s1 -> nth v D 0%Qc = FG c0 v) -> KInv (mkKl D (repeat false n) [] [0%Qc] 0).
Proof.
  intros D LD V. constructor; cbn [kl_D kl_moved kl_nodes kl_sums kl_best].
  - exact LD.
  - apply repeat_length.
  - intros v [].
  - intros v Hv. rewrite nth_repeat. split; [discriminate|intros []].
  - cbn. f_equal. ring.
  - split; [cbn; lia|]. intros i Hi. cbn in Hi. assert (i = 0) as -> by lia. apply Qcle_refl.
  - intros v Hv AV _. apply V. apply in_ab. auto.
  - intros a r X. discriminate.
Qed.
End Two.
Section Solve.
Variables A B : nat.
Hypothesis AB : A <> B.
Lemma move_col : forall c a b v, col c A a -> col c B b -> v < n -> ab A B c v -> exists a' b', pm_move (a, b) v = (a', b') /\ col (flip A B c v) A a' /\ col (flip A B c v) B b'.
Proof.
  intros c a b v CA CB L AV. unfold pm_move. rewrite (col_mem c A a v CA L).
  assert (FV : forall x, x <> v -> flip A B c v x = c x) by (intros; apply flip_other; assumption).
  assert (FS : flip A B c v v = oth A B (c v)) by (unfold flip, recol; rewrite Nat.eqb_refl; reflexivity).
  assert (ER : forall x s, In x (set_erase v s) <-> In x s /\ x <> v). { intros x s. unfold set_erase. rewrite filter_In, negb_true_iff, Nat.eqb_neq. tauto. }
  assert (IN : forall x s, In x (set_insert v s) <-> In x s \/ x = v). { intros x s. unfold set_insert. destruct (mem v s) eqn:M; [apply mem_In in M; split; [auto|intros [H| ->]; assumption]|]. cbn. intuition congruence. }
  destruct (Nat.eqb_spec (c v) A) as [E|E].
  - do 2 eexists. split; [reflexivity|]. assert (O : oth A B (c v) = B) by (rewrite E; unfold oth; rewrite Nat.eqb_refl; reflexivity). rewrite O in FS. split; intros x.
    + rewrite ER, (CA x). destruct (Nat.eq_dec x v) as [->|NE]; [rewrite FS; intuition congruence|rewrite FV by exact NE; tauto].
    + rewrite IN, (CB x). destruct (Nat.eq_dec x v) as [->|NE]; [rewrite FS; tauto|rewrite FV by exact NE; tauto].
  - do 2 eexists. split; [reflexivity|]. assert (O : oth A B (c v) = A) by (unfold oth; destruct (Nat.eqb_spec (c v) A); [contradiction|reflexivity]). rewrite O in FS. split; intros x.
    + rewrite IN, (CA x). destruct (Nat.eq_dec x v) as [->|NE]; [rewrite FS; tauto|rewrite FV by exact NE; tauto].
    + rewrite ER, (CB x). destruct (Nat.eq_dec x v) as [->|NE]; [rewrite FS; intuition congruence|rewrite FV by exact NE; tauto].
Qed.
Lemma moves_col : forall ns c a b, col c A a -> col c B b -> (forall v, In v ns -> v < n /\ ab A B c v) -> exists a' b', fold_left pm_move ns (a, b) = (a', b') /\ col (flips A B ns c) A a' /\ col (flips A B ns c) B b'.
Proof.
  induction ns as [|v ns IH]; intros c a b CA CB H. { exists a, b. auto. } destruct (H v (or_introl eq_refl)) as [L AV]. destruct (move_col c a b v CA CB L AV) as (a1 & b1 & E & CA1 & CB1). cbn [fold_left]. rewrite E.
  destruct (IH (flip A B c v) a1 b1 CA1 CB1) as (a2 & b2 & E2 & CA2 & CB2). { intros u I. destruct (H u (or_intror I)) as [Lu Au]. split; [exact Lu|]. apply flip_ab. exact Au. }
  exists a2, b2. auto.
Qed.
Lemma flips_keep : forall ns c v, (forall u, In u ns -> ab A B c u) -> ~ ab A B c v -> flips A B ns c v = c v.
Proof. intros ns c v H NA. apply flips_out. intros I. apply NA. apply H. exact I. Qed.
(** solveBinaryKL: the improvement is the change of the cost; nothing changes, or the cost decreases. *)
Lemma solve_ok : forall k imp a b c, col c A a -> col c B b -> exists imp' a' b' c',
  pm_solve order gm G k imp a b = Ret (imp', a', b') /\ col c' A a' /\ col c' B b' /\
  (forall v, v < n -> ~ ab A B c v -> c' v = c v) /\ (forall v, ab A B c v -> ab A B c' v) /\
  cost c' = (cost c + (imp' - imp))%Qc /\
  ((imp' = imp /\ a' = a /\ b' = b /\ c' = c /\ (0 < k -> forall v, v < n -> ab A B c v -> (- pm_eps10 < FG A B c v)%Qc)) \/ (imp' - imp <= - pm_eps10)%Qc).
Proof.
  induction k as [|k IH]; intros imp a b c CA CB; cbn [pm_solve].
  { exists imp, a, b, c. split; [reflexivity|]. split; [exact CA|]. split; [exact CB|]. split; [auto|]. split; [auto|]. split; [ring|]. left. do 4 (split; [reflexivity|]). lia. }
  destruct (gains_ok A B AB a b c CA CB) as (D & ED & LD & VD). rewrite ED. cbn [bind].
  destruct (sequence_ok A B AB a b c CA CB pm_inner (mkKl D (repeat false n) [] [0%Qc] 0) (start_ok A B AB a b c CA CB D LD VD)) as (s & ES & K & NN & _). rewrite ES. cbn [bind].
  destruct K as [KD KM KN KMV KS [KB1 KB2] KV KF].
  assert (LS : length (kl_sums s) = S (length (kl_nodes s))) by (rewrite KS, map_length, seq_length; reflexivity).
  assert (NS : forall i, i <= length (kl_nodes s) -> nth i (kl_sums s) 0%Qc = (cost (flips A B (firstn i (kl_nodes s)) c) - cost c)%Qc).
  { intros i Hi. rewrite KS. apply (nth_map_seq0 _ (fun i => cost (flips A B (firstn i (kl_nodes s)) c) - cost c)%Qc). lia. }
  rewrite (rd_nth _ _ (kl_best s) 0%Qc) by lia. cbn [bind]. destruct (Qc_lt (- pm_eps10)%Qc (nth (kl_best s) (kl_sums s) 0%Qc)) eqn:Q.
  - apply Qc_lt_true in Q. exists imp, a, b, c. split; [reflexivity|]. split; [exact CA|]. split; [exact CB|]. split; [auto|]. split; [auto|]. split; [ring|]. left. do 4 (split; [reflexivity|]). intros _ v Hv AV.
    destruct (kl_nodes s) as [|x r] eqn:EN. { exfalso. refine (NN _ eq_refl v Hv AV). unfold pm_inner. lia. }
    eapply Qclt_le_trans; [exact Q|]. eapply Qcle_trans; [apply (KB2 1); cbn; lia|]. rewrite NS by (cbn; lia). cbn [firstn flips fold_left]. destruct (KN x (or_introl eq_refl)) as [Lx Ax].
    rewrite (flip_cost A B AB c x Ax). eapply Qcle_trans; [|apply (KF x r eq_refl v Hv AV)]. replace (cost c + FG A B c x - cost c)%Qc with (FG A B c x) by ring. apply Qcle_refl.
  - apply Qc_lt_false in Q. rewrite (mapM_Ret _ _ _ (fun i => nth i (kl_nodes s) 0)) by (intros i I; apply in_seq in I; apply rd_nth; lia). cbn [bind].
    assert (FN : map (fun i => nth i (kl_nodes s) 0) (seq 0 (kl_best s)) = firstn (kl_best s) (kl_nodes s)).
    { clear - KB1. revert KB1. generalize (kl_nodes s) (kl_best s). induction l as [|x l IHl]; intros [|m] H; try reflexivity; cbn in H; [lia|]. cbn [seq map firstn nth]. f_equal. rewrite <- seq_shift, map_map. apply IHl. lia. }
    rewrite FN. set (ms := firstn (kl_best s) (kl_nodes s)).
    assert (MS : forall v, In v ms -> v < n /\ ab A B c v). { intros v I. apply KN. unfold ms in I. rewrite <- (firstn_skipn (kl_best s)). apply in_or_app. left. exact I. }
    destruct (moves_col ms c a b CA CB MS) as (a1 & b1 & EM & CA1 & CB1). rewrite EM.
    destruct (IH (imp + nth (kl_best s) (kl_sums s) 0%Qc)%Qc a1 b1 (flips A B ms c) CA1 CB1) as (imp' & a' & b' & c' & E' & CA' & CB' & OUT & AB' & CO & DI).
    exists imp', a', b', c'. split; [exact E'|]. split; [exact CA'|]. split; [exact CB'|].
    assert (KEEP : forall v, ~ ab A B c v -> flips A B ms c v = c v). { intros v NA. apply flips_keep; [|exact NA]. intros u I. apply MS. exact I. }
    split; [intros v Hv NA; rewrite (OUT v Hv); [apply KEEP; exact NA|]; unfold ab; rewrite (KEEP v NA); exact NA|].
    split; [intros v AV; apply AB'; apply flips_ab; exact AV|].
    pose proof (NS _ KB1) as NB. fold ms in NB. split; [rewrite CO, NB; ring|].
    right. set (bb := nth (kl_best s) (kl_sums s) 0%Qc) in *. assert (TAIL : (imp' - (imp + bb) <= 0)%Qc).
    { destruct DI as [(-> & _)|DI]; [replace (imp + bb - (imp + bb))%Qc with 0%Qc by ring; apply Qcle_refl|]. eapply Qcle_trans; [exact DI|]. unfold pm_eps10. vm_compute. discriminate. }
    replace (imp' - imp)%Qc with ((imp' - (imp + bb)) + bb)%Qc by ring. replace (- pm_eps10)%Qc with (0 + - pm_eps10)%Qc by ring. apply Qcplus_le_compat; assumption.
Qed.
End Solve.
End Kl.
