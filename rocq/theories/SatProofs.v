(** SAT: the 2-SAT theorem for the implication graph. *)
From Verif Require Import Base Values GmView GmViewSpec ShapeSpec ShapeProofs SatModel SatSpec.
From Coq Require Import Relations Sorted.
From Verif Require DecompProofs RedInfer DpNodeTree AStarSearch LprProofs.

(** ** Finding components is possible *)
Section Find.
Variables (n : nat) (es : list (nat * nat)).
Fixpoint reachb (k a b : nat) : bool :=
  (a =? b) || match k with 0 => false | S k => existsb (fun e => (fst e =? a) && reachb k (snd e) b) es end.
Lemma reachb_sound : forall k a b, reachb k a b = true -> reaches es a b.
Proof.
  induction k as [|k IH]; intros a b H; cbn [reachb] in H; apply orb_true_iff in H; destruct H as [H|H]; try (apply Nat.eqb_eq in H; subst; apply rt_refl); [discriminate|].
  apply existsb_exists in H. destruct H as ([u w] & I & H). apply andb_true_iff in H. destruct H as [H1 H2]. cbn [fst snd] in *. apply Nat.eqb_eq in H1. subst.
  apply rt_trans with w; [apply rt_step; exact I|apply IH; exact H2].
Qed.
Lemma reachb_path : forall l a k, FactorGraphSpec.path (step es) (a :: l) -> length l <= k -> reachb k a (last l a) = true.
Proof.
  induction l as [|b l IH]; intros a k P L; [cbn [last]; destruct k; cbn [reachb]; rewrite Nat.eqb_refl; reflexivity|].
  destruct k as [|k]; [cbn in L; lia|]. cbn [reachb]. apply orb_true_iff. right. apply existsb_exists. exists (a, b). cbn [FactorGraphSpec.path] in P. destruct P as [S P]. split; [exact S|]. cbn [fst snd]. rewrite Nat.eqb_refl. cbn [andb].
  rewrite DpNodeTree.last_cons. apply IH; [exact P|cbn in L; lia].
Qed.
Hypothesis B : Forall (fun e => fst e < n /\ snd e < n) es.
Lemma path_bound : forall l a, a < n -> FactorGraphSpec.path (step es) (a :: l) -> Forall (fun v => v < n) (a :: l).
Proof.
  induction l as [|b l IH]; intros a Ha P; constructor; auto. cbn [FactorGraphSpec.path] in P. destruct P as [S P]. apply IH; [|exact P]. rewrite Forall_forall in B. apply (B _ S).
Qed.
Lemma reachb_complete : forall a b, a < n -> reaches es a b -> reachb n a b = true.
Proof.
  intros a b Ha H. destruct (DpNodeTree.simple_path nat Nat.eq_dec _ a b H) as (l & ND & P & <-). apply reachb_path; [exact P|].
  assert (L : length (a :: l) <= length (seq 0 n)). { apply NoDup_incl_length; [exact ND|]. intros v I. apply in_seq. pose proof (path_bound l a Ha P) as F. rewrite Forall_forall in F. specialize (F v I). cbn beta in F. lia. }
  rewrite seq_length in L. cbn in L. lia.
Qed.
Definition mutual (a b : nat) : bool := reachb n a b && reachb n b a.
Lemma mutual_iff : forall a b, a < n -> b < n -> mutual a b = true <-> reaches es a b /\ reaches es b a.
Proof.
  intros a b Ha Hb. unfold mutual. rewrite andb_true_iff. split; intros [X Y]; split; [apply reachb_sound with n; exact X|apply reachb_sound with n; exact Y|apply reachb_complete; assumption..].
Qed.
Definition rep (a : nat) : nat := match find (mutual a) (seq 0 n) with Some b => b | None => a end.
Lemma find_ext : forall (f h : nat -> bool) l, (forall x, In x l -> f x = h x) -> find f l = find h l.
Proof. intros f h l. induction l as [|x l IH]; intros H; auto. cbn [find]. rewrite (H x) by (left; auto). destruct (h x); auto. apply IH. intros; apply H; right; auto. Qed.
Lemma rep_ok : forall a, a < n -> rep a < n /\ mutual a (rep a) = true.
Proof.
  intros a Ha. unfold rep. destruct (find (mutual a) (seq 0 n)) as [b|] eqn:F.
  - apply find_some in F. destruct F as [I M]. apply in_seq in I. split; [lia|exact M].
  - exfalso. pose proof (find_none _ _ F a) as M. rewrite in_seq in M. specialize (M ltac:(lia)). assert (X : mutual a a = true) by (apply mutual_iff; auto; split; apply rt_refl). congruence.
Qed.
Lemma scc_ok : components_of n es (map rep (seq 0 n)).
Proof.
  split; [rewrite map_length, seq_length; reflexivity|]. intros a b Ha Hb.
  rewrite !(nth_indep _ 0 (rep 0)) by (rewrite map_length, seq_length; assumption). rewrite !map_nth, !seq_nth by assumption. cbn [plus]. rewrite <- mutual_iff by assumption. split.
  - intros E. destruct (rep_ok a Ha) as [La Ma], (rep_ok b Hb) as [Lb Mb]. rewrite E in *. apply mutual_iff in Ma, Mb; auto. apply mutual_iff; auto. destruct Ma, Mb. split; eapply rt_trans; eauto.
  - intros M. apply mutual_iff in M; auto. destruct M as [X Y]. unfold rep. rewrite (find_ext (mutual a) (mutual b)).
    + destruct (find (mutual b) (seq 0 n)) eqn:F; auto. exfalso. pose proof (find_none _ _ F b) as M. rewrite in_seq in M. specialize (M ltac:(lia)). assert (Z : mutual b b = true) by (apply mutual_iff; auto; split; apply rt_refl). congruence.
    + intros c I. apply in_seq in I. assert (c < n) by lia. apply eq_true_iff_eq. rewrite !mutual_iff by assumption. split; intros [P Q]; split; eapply rt_trans; eauto.
Qed.
End Find.

(** ** The implication graph *)
Section G.
Variable g : gmv bool.
Hypothesis TS : two_sat g.
Notation n := (length (v_labels g)).
Definition clause_edges (fc : list nat * (list nat -> bool)) (p : nat * nat) : list (nat * nat) :=
  if negb (snd fc [fst p; snd p]) then
    [(nth 0 (fst fc) 0 + fst p * n, nth 1 (fst fc) 0 + (1 - snd p) * n); (nth 1 (fst fc) 0 + snd p * n, nth 0 (fst fc) 0 + (1 - fst p) * n)]
  else [].
Definition fac_edges (fc : list nat * (list nat -> bool)) : list (nat * nat) := flat_map (clause_edges fc) [(0, 0); (0, 1); (1, 0); (1, 1)].
Definition edges : list (nat * nat) := flat_map fac_edges (v_factors g).

Lemma fac_two : forall fc, In fc (v_factors g) -> exists i j, fst fc = [i; j] /\ i < j /\ j < n.
Proof.
  intros fc I. destruct TS as ((W & _) & _ & F2). rewrite Forall_forall in W, F2. specialize (W fc I). specialize (F2 fc I). cbn beta in W, F2. destruct W as [S B]. destruct (fst fc) as [|i [|j [|? ?]]]; try discriminate F2.
  exists i, j. split; auto. inversion S as [|? ? ? H]; subst. inversion H; subst. inversion B as [|? ? ? B']; subst. inversion B'; subst. auto.
Qed.
Lemma at_ok : forall fc p q, In fc (v_factors g) -> p < 2 -> q < 2 -> sat_at g fc [p; q] = Ret (snd fc [p; q]).
Proof.
  intros fc p q I Hp Hq. destruct (fac_two fc I) as (i & j & E & L1 & L2). unfold sat_at. rewrite E. destruct TS as (_ & L & _). rewrite Forall_forall in L.
  assert (R : forall v, v < n -> rd (v_labels g) v = Ret 2). { intros v Hv. rewrite (rd_nth _ _ _ 2) by assumption. rewrite <- (L (nth v (v_labels g) 2)); auto. apply nth_In. assumption. }
  cbn [mapM]. rewrite !R by lia. cbn [bind]. cbn [combine forallb fst snd]. rewrite (proj2 (Nat.ltb_lt p 2) Hp), (proj2 (Nat.ltb_lt q 2) Hq). reflexivity.
Qed.
Lemma clause_ok : forall fc es p q, In fc (v_factors g) -> p < 2 -> q < 2 -> sat_clause g fc es (p, q) = Ret (es ++ clause_edges fc (p, q)).
Proof.
  intros fc es p q I Hp Hq. unfold sat_clause, clause_edges. cbn [fst snd]. rewrite at_ok by assumption. cbn [bind]. destruct (fac_two fc I) as (i & j & E & _). rewrite E. destruct (snd fc [p; q]); cbn [negb]; [rewrite app_nil_r; reflexivity|]. reflexivity.
Qed.
Lemma factor_ok : forall fc es, In fc (v_factors g) -> sat_factor g es fc = Ret (es ++ fac_edges fc).
Proof.
  intros fc es I. unfold sat_factor. destruct (fac_two fc I) as (i & j & E & _). rewrite E. cbn [length Nat.eqb negb seq foldM]. unfold fac_edges. cbn [flat_map].
  rewrite clause_ok by (auto; lia). cbn [bind]. rewrite clause_ok by (auto; lia). cbn [bind]. rewrite clause_ok by (auto; lia). cbn [bind]. rewrite clause_ok by (auto; lia). cbn [bind]. rewrite app_nil_r, !app_assoc. reflexivity.
Qed.
Lemma graph_ok : sat_graph g = Ret edges.
Proof.
  unfold sat_graph, edges. assert (H : forall l es, incl l (v_factors g) -> foldM (sat_factor g) l es = Ret (es ++ flat_map fac_edges l)).
  { induction l as [|fc l IH]; intros es HI; cbn [foldM flat_map]; [rewrite app_nil_r; reflexivity|]. rewrite factor_ok by (apply HI; left; auto). cbn [bind]. rewrite IH by (intros x Hx; apply HI; right; exact Hx). rewrite app_assoc. reflexivity. }
  rewrite H by (intros x Hx; exact Hx). reflexivity.
Qed.
Lemma edge_iff : forall a b, In (a, b) edges <-> exists fc i j p q, In fc (v_factors g) /\ fst fc = [i; j] /\ p < 2 /\ q < 2 /\ snd fc [p; q] = false /\
  ((a = i + p * n /\ b = j + (1 - q) * n) \/ (a = j + q * n /\ b = i + (1 - p) * n)).
Proof.
  intros a b. unfold edges. rewrite in_flat_map. split.
  - intros (fc & I & H). destruct (fac_two fc I) as (i & j & E & _). unfold fac_edges in H. rewrite in_flat_map in H. destruct H as ([p q] & HI & H). exists fc, i, j, p, q. split; [exact I|]. split; [exact E|].
    assert (p < 2 /\ q < 2) as [Hp Hq]. { cbn in HI. destruct HI as [X|[X|[X|[X|[]]]]]; injection X as <- <-; lia. } split; [exact Hp|]. split; [exact Hq|].
    unfold clause_edges in H. cbn [fst snd] in H. rewrite E in H. cbn [nth] in H. destruct (snd fc [p; q]); cbn [negb In] in H; [destruct H|]. split; [reflexivity|]. destruct H as [X|[X|[]]]; injection X as <- <-; auto.
  - intros (fc & i & j & p & q & I & E & Hp & Hq & F & H). exists fc. split; [exact I|]. unfold fac_edges. rewrite in_flat_map. exists (p, q). split.
    { destruct p as [|[|p]]; [| |lia]; destruct q as [|[|q]]; try lia; cbn; auto. }
    unfold clause_edges. cbn [fst snd]. rewrite E, F. cbn [negb nth In]. destruct H as [[-> ->]|[-> ->]]; auto.
Qed.
Definition neg (a : nat) : nat := if a <? n then a + n else a - n.
Lemma neg_lit : forall i p, i < n -> p < 2 -> neg (i + p * n) = i + (1 - p) * n.
Proof. intros i p Hi Hp. unfold neg. destruct p as [|[|p]]; [| |lia]; cbn [Nat.mul Nat.sub]; rewrite ?Nat.add_0_r; [rewrite (proj2 (Nat.ltb_lt _ _) Hi); lia|]. rewrite (proj2 (Nat.ltb_ge _ _)) by lia. lia. Qed.
Lemma neg_neg : forall a, a < 2 * n -> neg (neg a) = a.
Proof. intros a H. unfold neg. destruct (Nat.ltb_spec a n); [rewrite (proj2 (Nat.ltb_ge _ _)) by lia; lia|]. rewrite (proj2 (Nat.ltb_lt _ _)) by lia. lia. Qed.
Lemma neg_bound : forall a, a < 2 * n -> neg a < 2 * n.
Proof. intros a H. unfold neg. destruct (Nat.ltb_spec a n); lia. Qed.
Lemma edge_bound : forall a b, In (a, b) edges -> a < 2 * n /\ b < 2 * n.
Proof.
  intros a b H. apply edge_iff in H. destruct H as (fc & i & j & p & q & I & E & Hp & Hq & _ & H). destruct (fac_two fc I) as (i' & j' & E' & L1 & L2). rewrite E in E'. injection E' as <- <-.
  destruct p as [|[|p]]; [| |lia]; destruct q as [|[|q]]; try lia; cbn [Nat.mul Nat.sub] in H; lia.
Qed.
Lemma edge_neg : forall a b, In (a, b) edges -> In (neg b, neg a) edges.
Proof.
  intros a b H. apply edge_iff in H. destruct H as (fc & i & j & p & q & I & E & Hp & Hq & F & H). destruct (fac_two fc I) as (i' & j' & E' & L1 & L2). rewrite E in E'. injection E' as <- <-.
  apply edge_iff. exists fc, i, j, p, q. split; [exact I|]. split; [exact E|]. split; [exact Hp|]. split; [exact Hq|]. split; [exact F|].
  destruct H as [[-> ->]|[-> ->]]; rewrite !neg_lit by lia; replace (1 - (1 - p)) with p by lia; replace (1 - (1 - q)) with q by lia; auto.
Qed.
Notation reach := (reaches edges).
Lemma reach_neg : forall a b, reach a b -> reach (neg b) (neg a).
Proof. intros a b H. induction H as [a b H| |a b c _ IH1 _ IH2]; [apply rt_step; apply edge_neg; exact H|apply rt_refl|apply rt_trans with (neg b); assumption]. Qed.
Lemma reach_bound : forall a b, reach a b -> a < 2 * n -> b < 2 * n.
Proof. intros a b H. induction H as [a b H| |a b c _ IH1 _ IH2]; auto. intros _. apply edge_bound in H. apply H. Qed.

(** ** A satisfying labeling makes the true vertices closed *)
Definition tru (x : list nat) (a : nat) : Prop := exists i p, a = i + p * n /\ i < n /\ nth i x 0 = p.
Lemma lab_two : forall x i, labeling g x -> i < n -> nth i x 0 < 2.
Proof.
  intros x i LX Hi. destruct TS as (_ & L & _). rewrite Forall_forall in L. pose proof (LprProofs.in_shape_at (v_labels g) x i LX Hi) as H. rewrite <- (L (nth i (v_labels g) 0)) in H by (apply nth_In; exact Hi). exact H.
Qed.
Lemma lit_inj : forall i j p q, i < n -> j < n -> p < 2 -> q < 2 -> i + p * n = j + q * n -> i = j /\ p = q.
Proof. intros i j p q Hi Hj Hp Hq E. destruct p as [|[|p]]; [| |lia]; destruct q as [|[|q]]; try lia; cbn [Nat.mul] in E; lia. Qed.
Lemma tru_edge : forall x a b, satisfying g x -> In (a, b) edges -> tru x a -> tru x b.
Proof.
  intros x a b [LX S] H (v & r & -> & Hv & X). apply edge_iff in H. destruct H as (fc & i & j & p & q & I & E & Hp & Hq & F & H). destruct (fac_two fc I) as (i' & j' & E' & L1 & L2). rewrite E in E'. injection E' as <- <-.
  rewrite Forall_forall in S. specialize (S fc I). cbn beta in S. rewrite E in S. unfold at_vars in S. cbn [map] in S.
  pose proof (lab_two x i LX ltac:(lia)) as Bi. pose proof (lab_two x j LX ltac:(lia)) as Bj. pose proof (lab_two x v LX Hv) as Bv.
  destruct H as [[EA ->]|[EA ->]]; apply lit_inj in EA; try lia; destruct EA as [-> ->].
  - exists j, (1 - q). split; auto. split; [lia|]. assert (nth j x 0 <> q) by (intros Y; rewrite X, Y in S; congruence). lia.
  - exists i, (1 - p). split; auto. split; [lia|]. assert (nth i x 0 <> p) by (intros Y; rewrite X, Y in S; congruence). lia.
Qed.
Lemma tru_reach : forall x a b, satisfying g x -> reach a b -> tru x a -> tru x b.
Proof. intros x a b S H. induction H as [a b H| |]; eauto using tru_edge. Qed.
Lemma sat_no_cycle : forall x i, satisfying g x -> i < n -> ~ (reach i (i + n) /\ reach (i + n) i).
Proof.
  intros x i S Hi [P Q]. pose proof (lab_two x i (proj1 S) Hi) as B. assert (Z : nth i x 0 = 0 \/ nth i x 0 = 1) by lia.
  destruct Z as [Z|Z].
  - destruct (tru_reach x i (i + n) S P) as (j & p & E & Hj & X). { exists i, 0. split; [lia|auto]. } pose proof (lab_two x j (proj1 S) Hj). destruct (lit_inj i j 1 p) as [-> <-]; lia.
  - destruct (tru_reach x (i + n) i S Q) as (j & p & E & Hj & X). { exists i, 1. split; [lia|auto]. } pose proof (lab_two x j (proj1 S) Hj). destruct (lit_inj i j 0 p) as [-> <-]; lia.
Qed.

(** ** Conversely: choose a side for one variable after the other *)
Definition good (T : nat -> Prop) : Prop := (forall a, T a -> a < 2 * n) /\ (forall a b, T a -> reach a b -> T b) /\ (forall a, T a -> ~ T (neg a)).
Lemma em : forall P : Prop, ~ ~ (P \/ ~ P).
Proof. intros P H. apply H. right. intros p. apply H. left. exact p. Qed.
Hypothesis NC : forall i, i < n -> ~ (reach i (i + n) /\ reach (i + n) i).
Lemma no_loop : forall l, l < 2 * n -> ~ (reach l (neg l) /\ reach (neg l) l).
Proof.
  intros l Hl [P Q]. unfold neg in *. destruct (Nat.ltb_spec l n); [apply (NC l); auto|]. apply (NC (l - n)); [lia|]. replace (l - n + n) with l by lia. auto.
Qed.
(** Adding all that follows from a literal that does not refute itself. *)
Lemma extend : forall T l, good T -> l < 2 * n -> ~ T l -> ~ T (neg l) -> ~ reach l (neg l) -> good (fun a => T a \/ reach l a).
Proof.
  intros T l (B & C & X) Hl N1 N2 NR. split; [|split].
  - intros a [H|H]; [apply B; exact H|apply (reach_bound l a H Hl)].
  - intros a b [H|H] R; [left; eapply C; eauto|right; eapply rt_trans; eauto].
  - intros a [H|H] [K|K].
    + apply (X a); assumption.
    + (* l reaches neg a, a true *) apply reach_neg in K. rewrite neg_neg in K by (apply B; exact H). apply N2. eapply C; eauto.
    + apply reach_neg in H. apply N2. eapply C; eauto.
    + apply NR. apply reach_neg in K. rewrite neg_neg in K by (apply (reach_bound l a H Hl)). eapply rt_trans; eauto.
Qed.
Lemma choose_sides : forall k, k <= n -> ~ ~ exists T, good T /\ forall i, i < k -> T i \/ T (i + n).
Proof.
  induction k as [|k IH]; intros Hk H. { apply H. exists (fun _ => False). split; [split; [|split]; intros; tauto|]. intros; lia. }
  apply IH; [lia|]. intros (T & GT & CV). apply (em (T k)). intros [Y|N1]. { apply H. exists T. split; auto. intros i Hi. destruct (Nat.eq_dec i k) as [->|]; auto. apply CV. lia. }
  apply (em (T (k + n))). intros [Y|N2]. { apply H. exists T. split; auto. intros i Hi. destruct (Nat.eq_dec i k) as [->|]; auto. apply CV. lia. }
  assert (NK : neg k = k + n) by (unfold neg; rewrite (proj2 (Nat.ltb_lt _ _)) by lia; reflexivity).
  assert (NK' : neg (k + n) = k) by (unfold neg; rewrite (proj2 (Nat.ltb_ge _ _)) by lia; lia).
  apply (em (reach k (k + n))). intros [R|NR].
  - apply H. exists (fun a => T a \/ reach (k + n) a). split.
    + apply extend; auto; [lia|rewrite NK'; auto|rewrite NK'; intros Q; apply (NC k); auto; lia].
    + intros i Hi. destruct (Nat.eq_dec i k) as [->|]; [right; right; apply rt_refl|]. destruct (CV i); [lia|auto..].
  - apply H. exists (fun a => T a \/ reach k a). split.
    + apply extend; auto; [lia|rewrite NK; auto|rewrite NK; auto].
    + intros i Hi. destruct (Nat.eq_dec i k) as [->|]; [left; right; apply rt_refl|]. destruct (CV i); [lia|auto..].
Qed.
Lemma read_off : forall T k, good T -> (forall i, i < n -> T i \/ T (i + n)) -> k <= n -> ~ ~ exists x, length x = k /\ forall i, i < k -> nth i x 0 < 2 /\ T (i + nth i x 0 * n).
Proof.
  intros T k GT CV. induction k as [|k IH]; intros Hk H. { apply H. exists []. split; auto. intros; lia. }
  apply IH; [lia|]. intros (x & L & P).
  destruct (CV k ltac:(lia)) as [Y|Y]; apply H; [exists (x ++ [0])|exists (x ++ [1])]; (split; [rewrite app_length, L; cbn; lia|]; intros i Hi; destruct (Nat.eq_dec i k) as [->|]; [rewrite app_nth2, L, Nat.sub_diag by lia; cbn [nth Nat.mul]; rewrite ?Nat.add_0_r; split; [lia|exact Y]|rewrite app_nth1 by lia; apply P; lia]).
Qed.
Lemma satisfying_dec : (exists x, satisfying g x) \/ ~ exists x, satisfying g x.
Proof.
  set (t := fun x => forallb (fun fc => snd fc (at_vars x (fst fc))) (v_factors g)).
  destruct (existsb t (RedInfer.labelings (v_labels g))) eqn:E.
  - left. apply existsb_exists in E. destruct E as (x & I & F). exists x. split; [apply RedInfer.labelings_In; exact I|]. apply Forall_forall. unfold t in F. rewrite forallb_forall in F. exact F.
  - right. intros (x & LX & F). apply not_true_iff_false in E. apply E. apply existsb_exists. exists x. split; [apply RedInfer.labelings_In; exact LX|]. unfold t. apply forallb_forall. rewrite Forall_forall in F. exact F.
Qed.
Lemma shape_two : forall (ls x : list nat), Forall (eq 2) ls -> length x = length ls -> (forall i, i < length ls -> nth i x 0 < 2) -> in_shape ls x.
Proof.
  induction ls as [|k ls IH]; intros x F L H; destruct x as [|a x]; try discriminate L; [constructor|]. inversion F; subst. constructor; [apply (H 0); cbn; lia|]. apply IH; auto. intros i Hi. apply (H (S i)). cbn. lia.
Qed.
Lemma no_cycle_sat : exists x, satisfying g x.
Proof.
  destruct satisfying_dec as [Y|N]; auto. exfalso. apply (choose_sides n (le_n n)). intros (T & GT & CV). apply (read_off T n GT CV (le_n n)). intros (x & L & P). apply N. exists x.
  split; [destruct TS as (_ & F & _); apply shape_two; auto; intros i Hi; apply P; exact Hi|].
  apply Forall_forall. intros fc I. destruct (fac_two fc I) as (i & j & E & L1 & L2). rewrite E. unfold at_vars. cbn [map].
  destruct (P i ltac:(lia)) as [Bi Ti], (P j L2) as [Bj Tj]. destruct (snd fc [nth i x 0; nth j x 0]) eqn:F; auto. exfalso. destruct GT as (B & C & X).
  apply (X _ Tj). rewrite neg_lit by assumption. apply (C _ _ Ti). apply rt_step. apply edge_iff. exists fc, i, j, (nth i x 0), (nth j x 0). auto 10.
Qed.
End G.

Section V.
Variable g : gmv bool.
Notation n := (length (v_labels g)).
Lemma value_ok : forall comp, length comp = n * 2 -> exists b, sat_value g comp = Ret b /\ (b = true <-> forall i, i < n -> nth i comp 0 <> nth (i + n) comp 0).
Proof.
  intros comp L. unfold sat_value. change (v_numberOfVariables bool g) with n.
  destruct (AStarSearch.foldM_ind nat bool (fun satisfied i => a <- rd comp i ;; b <- rd comp (i + n) ;; Ret (if a =? b then false else satisfied))
    (fun k b => b = true <-> forall i, i < k -> nth i comp 0 <> nth (i + n) comp 0) (seq 0 n) true) as (b & R & P).
  - split; [intros _ i Hi; lia|auto].
  - intros k a t E P. assert (Hk : k < n) by (rewrite <- (seq_length n 0); apply nth_error_Some; congruence). rewrite nth_error_nth' with (d := 0) in E by (rewrite seq_length; exact Hk). rewrite seq_nth in E by exact Hk. injection E as <-. cbn [plus].
    rewrite (rd_nth _ _ _ 0) by lia. cbn [bind]. rewrite (rd_nth _ _ _ 0) by lia. cbn [bind]. eexists. split; [reflexivity|].
    destruct (Nat.eqb_spec (nth k comp 0) (nth (k + n) comp 0)) as [E|NE].
    + split; [discriminate|]. intros H. exfalso. apply (H k); auto.
    + rewrite P. split; intros H i Hi; [destruct (Nat.eq_dec i k) as [->|]; auto; apply H; lia|apply H; lia].
  - exists b. rewrite seq_length in P. auto.
Qed.
End V.
