From Verif Require Import Base Values GmView GmViewSpec ShapeSpec GmViewProofs GraphCutModel GraphCutSpec.
Local Open Scope Z_scope.

(** ** Sums *)
Fixpoint sumZ (l : list Z) : Z := match l with [] => 0 | a :: l => a + sumZ l end.
Lemma sumZ_app : forall a b, sumZ (a ++ b) = sumZ a + sumZ b.
Proof. induction a as [|x a IH]; intros b; cbn; [|rewrite IH]; lia. Qed.
Lemma cut_cost_app : forall sg a b, cut_cost sg (a ++ b) = cut_cost sg a + cut_cost sg b.
Proof. induction a as [|[[u v] c] a IH]; intros b; cbn [app cut_cost]; [lia|]. rewrite IH. lia. Qed.

(** The terminal edges of one node. *)
Definition tcost (sg : list bool) (s t : list Z) (i : nat) : Z := if nth (i + 2) sg false then nth i s 0 else nth i t 0.
Lemma tcost_eq : forall sg s t i, tcost sg s t i = if nth (i + 2) sg false then nth i s 0 else nth i t 0. Proof. reflexivity. Qed.
Definition tcosts (sg : list bool) (s t : list Z) : Z := sumZ (map (tcost sg s t) (seq 0 (length s))).
Definition Phi (s : gc) (sg : list bool) : Z := cut_cost sg (gc_edges s) + tcosts sg (gc_s s) (gc_t s).

Lemma side2 : forall sg i, side sg (i + 2) = nth (i + 2) sg false.
Proof. intros sg i. rewrite Nat.add_comm. reflexivity. Qed.
Lemma terminal_cost : forall s sg, cut_cost sg (terminal_edges s) = tcosts sg (gc_s s) (gc_t s).
Proof.
  intros s sg. unfold terminal_edges, tcosts. generalize (seq 0 (length (gc_s s))) as l. induction l as [|i l IH]; auto.
  cbn [flat_map]. rewrite cut_cost_app, IH. cbn [map sumZ fold_right]. rewrite (tcost_eq _ _ _ i).
  cbn [cut_cost fold_right]. rewrite !side2. cbn [side]. destruct (nth (i + 2) sg false); cbn; lia.
Qed.

Record ginv (n : nat) (s : gc) : Prop := mkGinv {
  gi_nodes : gc_nodes s = (n + 2)%nat; gi_s : length (gc_s s) = n; gi_t : length (gc_t s) = n; gi_dim : gc_dim3 s = 0%nat;
  gi_edges : legal_edges (gc_nodes s) (gc_edges s); gi_s0 : Forall (fun c => 0 <= c) (gc_s s); gi_t0 : Forall (fun c => 0 <= c) (gc_t s) }.

Lemma create_ok : forall n dims scale tol, nth 3 dims 0%nat = 0%nat -> ginv n (gc_create n dims scale tol) /\
  (forall sg, Phi (gc_create n dims scale tol) sg = 0) /\ gc_scale (gc_create n dims scale tol) = scale /\ gc_tol (gc_create n dims scale tol) = Z.abs tol.
Proof.
  intros n dims scale tol H. unfold gc_create. rewrite H. rewrite !Nat.add_0_r. split; [|split; auto].
  - split; cbn [gc_nodes gc_s gc_t gc_edges gc_dim3]; auto; try apply repeat_length; try lia; try constructor.
    all: apply Forall_forall; intros c Hc; apply repeat_spec in Hc; lia.
  - intros sg. unfold Phi, tcosts. cbn [gc_edges gc_s gc_t cut_cost fold_right]. rewrite repeat_length. generalize (seq 0 n) as l.
    induction l as [|i l IH]; auto. cbn [map sumZ]. rewrite (tcost_eq _ _ _ i), !nth_repeat. destruct (nth (i + 2) sg false); lia.
Qed.

Lemma tcosts_upd_s : forall sg s t i c, (i < length s)%nat -> tcosts sg (upd s i (nth i s 0 + c)) t = tcosts sg s t + (if nth (i + 2) sg false then c else 0).
Proof.
  intros sg s t i c Hi. unfold tcosts. rewrite length_upd. assert (G : forall l, NoDup l ->
    sumZ (map (tcost sg (upd s i (nth i s 0 + c)) t) l) = sumZ (map (tcost sg s t) l) + (if in_dec Nat.eq_dec i l then if nth (i + 2) sg false then c else 0 else 0)).
  { induction 1 as [|a l Ha ND IH]; cbn [map sumZ fold_right]; [cbn; lia|]. fold (sumZ (map (tcost sg (upd s i (nth i s 0 + c)) t) l)) (sumZ (map (tcost sg s t) l)). rewrite IH.
    rewrite !(tcost_eq _ _ _ a). destruct (Nat.eq_dec a i) as [->|N].
    - rewrite nth_upd_eq by auto. destruct (in_dec Nat.eq_dec i l); [contradiction|]. destruct (in_dec Nat.eq_dec i (i :: l)) as [|X]; [|destruct X; left; auto].
      destruct (nth (i + 2) sg false); lia.
    - rewrite nth_upd_neq by auto. destruct (in_dec Nat.eq_dec i l), (in_dec Nat.eq_dec i (a :: l)) as [X|X]; try lia.
      + exfalso; apply X; right; auto.
      + destruct X; [congruence|contradiction]. }
  rewrite G by apply seq_NoDup. destruct (in_dec Nat.eq_dec i (seq 0 (length s))) as [|X]; auto. exfalso. apply X. apply in_seq. lia.
Qed.
Lemma tcosts_upd_t : forall sg s t i c, (i < length s)%nat -> (i < length t)%nat ->
  tcosts sg s (upd t i (nth i t 0 + c)) = tcosts sg s t + (if nth (i + 2) sg false then 0 else c).
Proof.
  intros sg s t i c Hi Ht. unfold tcosts. assert (G : forall l, NoDup l ->
    sumZ (map (tcost sg s (upd t i (nth i t 0 + c))) l) = sumZ (map (tcost sg s t) l) + (if in_dec Nat.eq_dec i l then if nth (i + 2) sg false then 0 else c else 0)).
  { induction 1 as [|a l Ha ND IH]; cbn [map sumZ fold_right]; [cbn; lia|]. fold (sumZ (map (tcost sg s (upd t i (nth i t 0 + c))) l)) (sumZ (map (tcost sg s t) l)). rewrite IH.
    rewrite !(tcost_eq _ _ _ a). destruct (Nat.eq_dec a i) as [->|N].
    - rewrite nth_upd_eq by auto. destruct (in_dec Nat.eq_dec i l); [contradiction|]. destruct (in_dec Nat.eq_dec i (i :: l)) as [|X]; [|destruct X; left; auto].
      destruct (nth (i + 2) sg false); lia.
    - rewrite nth_upd_neq by auto. destruct (in_dec Nat.eq_dec i l), (in_dec Nat.eq_dec i (a :: l)) as [X|X]; try lia.
      + exfalso; apply X; right; auto.
      + destruct X; [congruence|contradiction]. }
  rewrite G by apply seq_NoDup. destruct (in_dec Nat.eq_dec i (seq 0 (length s))) as [|X]; auto. exfalso. apply X. apply in_seq. lia.
Qed.

(** ** One edge.  [same]: the parameters are unchanged. *)
Definition same (s s' : gc) : Prop := gc_scale s' = gc_scale s /\ gc_tol s' = gc_tol s.
Lemma same_refl : forall s, same s s. Proof. split; auto. Qed.
Lemma same_trans : forall a b c, same a b -> same b c -> same a c.
Proof. intros a b c [A B] [C D]. split; congruence. Qed.
Lemma Forall_upd : forall (A : Type) (P : A -> Prop) l i v, Forall P l -> P v -> Forall P (upd l i v).
Proof. intros A P l i v H. revert i. induction H as [|a l Ha H IH]; intros [|i] Hv; cbn; auto. Qed.
Lemma Forall_nth0 : forall l i, Forall (fun c => 0 <= c) l -> 0 <= nth i l 0.
Proof. intros l i H. destruct (Nat.lt_ge_cases i (length l)); [|rewrite nth_overflow by auto; lia]. rewrite Forall_forall in H. apply H, nth_In. auto. Qed.

Lemma add_source : forall n s i val, ginv n s -> (i < n)%nat -> 0 <= gc_scale s * val -> exists s', addEdgeCapacity s 0 (i + 2) val = Ret s' /\ ginv n s' /\ same s s' /\
  forall sg, Phi s' sg = Phi s sg + (if nth (i + 2) sg false then gc_scale s * val else 0).
Proof.
  intros n s i val I Hi Hc. destruct I as [A B C D E F G]. unfold addEdgeCapacity. cbn [Nat.eqb]. replace (i + 2 <? 2)%nat with false by (symmetry; apply Nat.ltb_ge; lia).
  rewrite Nat.add_sub, (rd_nth _ _ _ 0) by lia. cbn [bind]. rewrite wr_Ret by lia. cbn [bind]. eexists. split; [reflexivity|]. split; [|split; [split; auto|]].
  - split; cbn [gc_nodes gc_s gc_t gc_edges gc_dim3]; auto; [rewrite length_upd; auto|]. apply Forall_upd; auto. pose proof (Forall_nth0 _ i F). lia.
  - intros sg. unfold Phi. cbn [gc_edges gc_s gc_t]. rewrite tcosts_upd_s by lia. lia.
Qed.
Lemma add_sink : forall n s i val, ginv n s -> (i < n)%nat -> 0 <= gc_scale s * val -> exists s', addEdgeCapacity s (i + 2) 1 val = Ret s' /\ ginv n s' /\ same s s' /\
  forall sg, Phi s' sg = Phi s sg + (if nth (i + 2) sg false then 0 else gc_scale s * val).
Proof.
  intros n s i val I Hi Hc. destruct I as [A B C D E F G]. unfold addEdgeCapacity. replace (i + 2 =? 0)%nat with false by (symmetry; apply Nat.eqb_neq; lia).
  cbn [Nat.eqb]. replace (i + 2 <? 2)%nat with false by (symmetry; apply Nat.ltb_ge; lia).
  rewrite Nat.add_sub, (rd_nth _ _ _ 0) by lia. cbn [bind]. rewrite wr_Ret by lia. cbn [bind]. eexists. split; [reflexivity|]. split; [|split; [split; auto|]].
  - split; cbn [gc_nodes gc_s gc_t gc_edges gc_dim3]; auto; [rewrite length_upd; auto|]. apply Forall_upd; auto. pose proof (Forall_nth0 _ i G). lia.
  - intros sg. unfold Phi. cbn [gc_edges gc_s gc_t]. rewrite tcosts_upd_t by lia. lia.
Qed.
Lemma add_inner : forall n s i j val, ginv n s -> (i < n)%nat -> (j < n)%nat -> 0 <= gc_scale s * val -> exists s', addEdgeCapacity s (i + 2) (j + 2) val = Ret s' /\ ginv n s' /\ same s s' /\
  forall sg, Phi s' sg = Phi s sg + (if negb (nth (i + 2) sg false) && nth (j + 2) sg false then gc_scale s * val else 0).
Proof.
  intros n s i j val I Hi Hj Hc. destruct I as [A B C D E F G]. unfold addEdgeCapacity. replace (i + 2 =? 0)%nat with false by (symmetry; apply Nat.eqb_neq; lia).
  replace (j + 2 =? 1)%nat with false by (symmetry; apply Nat.eqb_neq; lia). rewrite !(proj2 (Nat.ltb_lt _ _)) by lia. cbn [andb].
  eexists. split; [reflexivity|]. split; [|split; [split; auto|]].
  - split; cbn [gc_nodes gc_s gc_t gc_edges gc_dim3]; auto. apply Forall_app. split; auto. constructor; auto. split; [lia|]. split; [lia|auto].
  - intros sg. unfold Phi. cbn [gc_edges gc_s gc_t]. rewrite cut_cost_app. cbn [cut_cost fold_right]. rewrite !side2. destruct (_ && _); lia.
Qed.

(** ** One factor *)
Definition lab (sg : list bool) (v : nat) : nat := if nth (v + 2) sg false then 1%nat else 0%nat.
Definition sgn (maxi : bool) : Z := if maxi then -1 else 1.

Lemma add_unary : forall maxi n s v v0 v1, ginv n s -> (v < n)%nat -> 0 <= gc_scale s -> exists s', addUnaryFactor maxi s v v0 v1 = Ret s' /\ ginv n s' /\ same s s' /\
  exists k, forall sg, Phi s' sg = Phi s sg + gc_scale s * (sgn maxi * (if nth (v + 2) sg false then v1 else v0) - k).
Proof.
  intros maxi n s v v0 v1 I Hv Hs. unfold addUnaryFactor, sgn. destruct maxi.
  - destruct (Z.leb_spec v1 v0).
    + destruct (add_source n s v (- v1 + v0) I Hv ltac:(nia)) as (s' & E & I' & S & P). exists s'. split; auto. split; auto. split; auto. exists (- v0). intros sg. rewrite P. destruct (nth _ _ _); lia.
    + destruct (add_sink n s v (- v0 + v1) I Hv ltac:(nia)) as (s' & E & I' & S & P). exists s'. split; auto. split; auto. split; auto. exists (- v1). intros sg. rewrite P. destruct (nth _ _ _); lia.
  - destruct (Z.leb_spec v0 v1).
    + destruct (add_source n s v (v1 - v0) I Hv ltac:(nia)) as (s' & E & I' & S & P). exists s'. split; auto. split; auto. split; auto. exists v0. intros sg. rewrite P. destruct (nth _ _ _); lia.
    + destruct (add_sink n s v (v0 - v1) I Hv ltac:(nia)) as (s' & E & I' & S & P). exists s'. split; auto. split; auto. split; auto. exists v1. intros sg. rewrite P. destruct (nth _ _ _); lia.
Qed.
Lemma add_first : forall n s v c, ginv n s -> (v < n)%nat -> 0 <= gc_scale s ->
  exists s', (if 0 <? c then addEdgeCapacity s 0 (v + 2) c else if c <? 0 then addEdgeCapacity s (v + 2) 1 (- c) else Ret s) = Ret s' /\ ginv n s' /\ same s s' /\
  exists k, forall sg, Phi s' sg = Phi s sg + gc_scale s * ((if nth (v + 2) sg false then c else 0) - k).
Proof.
  intros n s v c I Hv Hs. destruct (Z.ltb_spec 0 c).
  - destruct (add_source n s v c I Hv ltac:(nia)) as (s' & E & I' & S & P). exists s'. split; auto. split; auto. split; auto. exists 0. intros sg. rewrite P. destruct (nth _ _ _); lia.
  - destruct (Z.ltb_spec c 0).
    + destruct (add_sink n s v (- c) I Hv ltac:(nia)) as (s' & E & I' & S & P). exists s'. split; auto. split; auto. split; auto. exists c. intros sg. rewrite P. destruct (nth _ _ _); lia.
    + exists s. split; auto. split; auto. split; [apply same_refl|]. exists 0. intros sg. assert (c = 0) by lia. subst c. destruct (nth _ _ _); lia.
Qed.
Lemma add_pair : forall (maxi : bool) n s v w (A B C D : Z), ginv n s -> (v < n)%nat -> (w < n)%nat -> 0 <= gc_scale s -> 0 <= gc_tol s ->
  let d := if maxi then - (A + D - B - C) else A + D - B - C in d <= gc_tol s ->
  exists s', addPairFactor maxi s v w A B C D = Ret s' /\ ginv n s' /\ same s s' /\
  exists k, forall sg, Phi s' sg = Phi s sg + gc_scale s * (sgn maxi * (if nth (v + 2) sg false then if nth (w + 2) sg false then D else C else if nth (w + 2) sg false then B else A) - k +
    (if negb (nth (v + 2) sg false) && nth (w + 2) sg false then Z.max 0 d else 0)).
Proof.
  intros maxi n s v w A B C D I Hv Hw Hs Ht d Hd. unfold addPairFactor.
  assert (E1 : forall s0 p q r c (x y : outcome gc), r = c -> p = (0 <? c) -> q = (c <? 0) -> (if p : bool then x else if q : bool then y else Ret s0) = (if 0 <? c then x else if c <? 0 then y else Ret s0))
    by (intros; subst; auto).
  destruct (add_first n s v (sgn maxi * (C - A)) I Hv Hs) as (s1 & X1 & I1 & S1 & k1 & P1). destruct S1 as [Sa Sb].
  destruct (add_first n s1 w (sgn maxi * (D - C)) I1 Hw ltac:(lia)) as (s2 & X2 & I2 & S2 & k2 & P2). destruct S2 as [Sc Sd].
  set (term := Z.max 0 (- d)).
  destruct (add_inner n s2 v w term I2 Hv Hw ltac:(unfold term; nia)) as (s3 & X3 & I3 & S3 & P3).
  exists s3. split; [|split; [auto|split; [eapply same_trans; [|exact S3]; split; congruence|]]].
  - unfold sgn, term, d in *. destruct maxi.
    + replace (C <? A) with (0 <? -1 * (C - A)) by (apply eq_true_iff_eq; rewrite !Z.ltb_lt; lia).
      replace (A <? C) with (-1 * (C - A) <? 0) by (apply eq_true_iff_eq; rewrite !Z.ltb_lt; lia).
      replace (- C + A) with (-1 * (C - A)) by lia. replace (- A + C) with (- (-1 * (C - A))) by lia. rewrite X1. cbn [bind].
      replace (D <? C) with (0 <? -1 * (D - C)) by (apply eq_true_iff_eq; rewrite !Z.ltb_lt; lia).
      replace (C <? D) with (-1 * (D - C) <? 0) by (apply eq_true_iff_eq; rewrite !Z.ltb_lt; lia).
      replace (- D + C) with (-1 * (D - C)) by lia. replace (- C + D) with (- (-1 * (D - C))) by lia. rewrite X2. cbn [bind].
      rewrite <- X3. f_equal. destruct (Z.ltb_spec 0 (B + C - A - D)), (Z.leb_spec (B + C - A - D) (gc_tol s2)); cbn [andb]; lia.
    + replace (A <? C) with (0 <? 1 * (C - A)) by (apply eq_true_iff_eq; rewrite !Z.ltb_lt; lia).
      replace (C <? A) with (1 * (C - A) <? 0) by (apply eq_true_iff_eq; rewrite !Z.ltb_lt; lia).
      replace (addEdgeCapacity s 0 (v + 2) (C - A)) with (addEdgeCapacity s 0 (v + 2) (1 * (C - A))) by (f_equal; lia). replace (A - C) with (- (1 * (C - A))) by lia. rewrite X1. cbn [bind].
      replace (C <? D) with (0 <? 1 * (D - C)) by (apply eq_true_iff_eq; rewrite !Z.ltb_lt; lia).
      replace (D <? C) with (1 * (D - C) <? 0) by (apply eq_true_iff_eq; rewrite !Z.ltb_lt; lia).
      replace (addEdgeCapacity s1 0 (w + 2) (D - C)) with (addEdgeCapacity s1 0 (w + 2) (1 * (D - C))) by (f_equal; lia). replace (C - D) with (- (1 * (D - C))) by lia. rewrite X2. cbn [bind].
      rewrite <- X3. f_equal. destruct (Z.ltb_spec (B + C - A - D) 0), (Z.leb_spec (- gc_tol s2) (B + C - A - D)); cbn [andb]; lia.
  - exists (k1 + k2 + sgn maxi * A). intros sg. rewrite P3, P2, P1, Sc, Sa. unfold term, d, sgn. destruct maxi, (nth (v + 2) sg false), (nth (w + 2) sg false); cbn [negb andb]; nia.
Qed.

Lemma addFactor_ok : forall maxi n s fc, ginv n s -> 0 <= gc_scale s -> 0 <= gc_tol s -> (length (fst fc) <= 2)%nat -> Forall (fun v => (v < n)%nat) (fst fc) -> excess maxi fc <= gc_tol s ->
  exists s', gc_addFactor maxi s fc = Ret s' /\ ginv n s' /\ same s s' /\
  exists k, forall sg, exists e, 0 <= e <= excess maxi fc /\ Phi s' sg = Phi s sg + gc_scale s * (sgn maxi * snd fc (map (lab sg) (fst fc)) - k + e).
Proof.
  intros maxi n s [vis f] I Hs Ht HL HF HE. unfold gc_addFactor. cbn [fst snd] in *. destruct vis as [|v [|w [|z vis]]]; [| | |cbn in HL; lia].
  - exists s. split; auto. split; auto. split; [apply same_refl|]. exists (sgn maxi * f []). intros sg. exists 0. cbn. split; lia.
  - inversion HF as [|? ? Hv HF']. destruct (add_unary maxi n s v (f [0%nat]) (f [1%nat]) I Hv Hs) as (s' & E & I' & S & k & P). exists s'. split; auto. split; auto. split; auto.
    exists k. intros sg. exists 0. split; [cbn; lia|]. rewrite P. cbn [map]. unfold lab. destruct (nth (v + 2) sg false); lia.
  - inversion HF as [|? ? Hv HF']. inversion HF' as [|? ? Hw HF'']. unfold excess in HE. cbn [fst snd] in HE.
    destruct (add_pair maxi n s v w (f [0; 0]%nat) (f [0; 1]%nat) (f [1; 0]%nat) (f [1; 1]%nat) I Hv Hw Hs Ht) as (s' & E & I' & S & k & P); [lia|].
    exists s'. split; auto. split; auto. split; auto. exists k. intros sg.
    exists (if negb (nth (v + 2) sg false) && nth (w + 2) sg false then excess maxi ([v; w], f) else 0). unfold excess. cbn [fst snd].
    split; [destruct (_ && _); lia|]. rewrite P. cbn [map]. unfold lab.
    destruct (nth (v + 2) sg false), (nth (w + 2) sg false); cbn [negb andb]; auto.
Qed.

(** ** All factors *)
Definition esum (fs : list factor) (l : nat -> nat) : Z := sumZ (map (fun fc : factor => snd fc (map l (fst fc))) fs).
Lemma addFactors_ok : forall maxi n fs s, ginv n s -> 0 <= gc_scale s -> 0 <= gc_tol s -> small_factors n fs -> Forall (fun fc => excess maxi fc <= gc_tol s) fs ->
  exists s', foldM (gc_addFactor maxi) fs s = Ret s' /\ ginv n s' /\ same s s' /\
  exists k, forall sg, exists e, 0 <= e <= total_excess maxi fs /\ Phi s' sg = Phi s sg + gc_scale s * (sgn maxi * esum fs (lab sg) - k + e).
Proof.
  intros maxi n fs. induction fs as [|fc fs IH]; intros s I Hs Ht HF HE.
  - exists s. split; auto. split; auto. split; [apply same_refl|]. exists 0. intros sg. exists 0. cbn. split; lia.
  - inversion HF as [|? ? [HL HV] HF']. inversion HE as [|? ? HE1 HE']. destruct (addFactor_ok maxi n s fc I Hs Ht HL HV HE1) as (s1 & E1 & I1 & [S1 S2] & k1 & P1).
    destruct (IH s1 I1) as (s' & E & I' & S' & k & P); [lia|lia|auto|rewrite S2; auto|].
    exists s'. cbn [foldM]. rewrite E1. cbn [bind]. split; auto. split; auto. split; [eapply same_trans; [|exact S']; split; auto|]. exists (k1 + k). intros sg.
    destruct (P sg) as (e & He & P'). destruct (P1 sg) as (e1 & He1 & P1'). exists (e1 + e). cbn [total_excess fold_right]. fold (total_excess maxi fs). split; [lia|].
    rewrite P', P1', S1. unfold esum. cbn [map sumZ fold_right]. fold (sumZ (map (fun fc0 : factor => snd fc0 (map (lab sg) (fst fc0))) fs)). lia.
Qed.

Lemma energy_sum : forall g x, energy g x = esum (v_factors g) (fun v => nth v x 0%nat).
Proof.
  intros g x. unfold energy, total, esum.
  assert (X : forall a fs, fold_left (fun acc (fc : factor) => o_op AdderZ (snd fc (at_vars x (fst fc))) acc) fs a =
    a + sumZ (map (fun fc : factor => snd fc (map (fun v => nth v x 0%nat) (fst fc))) fs)).
  { intros a fs. revert a. induction fs as [|fc fs IH]; intros a; cbn [fold_left map sumZ]; [lia|]. rewrite IH. cbn [o_op AdderZ]. unfold at_vars. lia. }
  rewrite X. auto.
Qed.
Lemma esum_ext : forall n fs a b, small_factors n fs -> (forall v, (v < n)%nat -> a v = b v) -> esum fs a = esum fs b.
Proof.
  intros n fs a b H E. unfold esum. f_equal. apply map_ext_in. intros fc Hfc. f_equal. apply map_ext_in. intros v Hv. apply E.
  unfold small_factors in H. rewrite Forall_forall in H. destruct (H fc Hfc) as [_ X]. rewrite Forall_forall in X. auto.
Qed.

(** The result of infer. *)
Definition labels_of_cut (sg : list bool) (n : nat) : list nat := map (lab sg) (seq 0 n).
Lemma infer_ok : forall maxi cut n s fs k, min_cut_solver cut -> ginv n s -> 0 < gc_scale s -> small_factors n fs ->
  (forall sg, exists e, 0 <= e <= total_excess maxi fs /\ Phi s sg = gc_scale s * (sgn maxi * esum fs (lab sg) - k + e)) ->
  gc_arg (gc_infer cut s) = Ret (labels_of_cut (gc_state (gc_infer cut s)) n) /\
  let x := labels_of_cut (gc_state (gc_infer cut s)) n in length x = n /\ Forall (fun l => (l < 2)%nat) x /\
  forall y, length y = n -> Forall (fun l => (l < 2)%nat) y ->
    sgn maxi * esum fs (fun v => nth v x 0%nat) <= sgn maxi * esum fs (fun v => nth v y 0%nat) + total_excess maxi fs.
Proof.
  intros maxi cut n s fs k HC I Hs HF HP. pose proof I as [A B C D E F G].
  assert (LE : legal_edges (gc_nodes s) (gc_edges s ++ terminal_edges s)).
  { apply Forall_app. split; auto. unfold terminal_edges. apply Forall_forall. intros e He. apply in_flat_map in He. destruct He as (i & Hi & He). apply in_seq in Hi.
    cbn in He. destruct He as [<-|[<-|[]]]; (split; [lia|split; [lia|apply Forall_nth0; auto]]). }
  destruct (HC (gc_nodes s) _ ltac:(lia) LE) as [HL HM]. set (sg := cut (gc_nodes s) (gc_edges s ++ terminal_edges s)) in *.
  cbn [gc_infer gc_state]. fold sg. split.
  - unfold gc_arg. cbn [gc_infer gc_done gc_state gc_dim3]. fold sg. rewrite D, HL, A. replace (2 + 0 <? n + 2)%nat with (negb (n =? 0)%nat).
    2:{ destruct (Nat.eqb_spec n 0), (Nat.ltb_spec (2 + 0) (n + 2)); cbn; lia. }
    replace (if negb (n =? 0)%nat then (n + 2 - 2 - 0)%nat else 0%nat) with n by (destruct (Nat.eqb_spec n 0); cbn; lia).
    unfold labels_of_cut. assert (X : forall j l, (j + l <= n)%nat -> mapM (fun i => b <- rd sg (i + 2) ;; Ret (if b : bool then 1%nat else 0%nat)) (seq j l) = Ret (map (lab sg) (seq j l))).
    { intros j l. revert j. induction l as [|l IH]; intros j Hj; auto. cbn [seq mapM map]. rewrite (rd_nth _ _ _ false) by lia. cbn [bind]. rewrite IH by lia. auto. }
    apply X. lia.
  - cbv zeta. split; [unfold labels_of_cut; rewrite map_length, seq_length; auto|]. split.
    { apply Forall_forall. intros l Hl. apply in_map_iff in Hl. destruct Hl as (v & <- & _). unfold lab. destruct (nth _ _ _); lia. }
    intros y Ly Hy. set (tau := false :: false :: map (fun l => (l =? 1)%nat) y). assert (LT : length tau = gc_nodes s) by (unfold tau; cbn; rewrite map_length; lia).
    specialize (HM tau LT). rewrite !cut_cost_app, !terminal_cost in HM. fold (Phi s sg) (Phi s tau) in HM.
    destruct (HP sg) as (e1 & He1 & E1). destruct (HP tau) as (e2 & He2 & E2). rewrite E1, E2 in HM.
    rewrite (esum_ext n fs (fun v => nth v (labels_of_cut sg n) 0%nat) (lab sg) HF).
    2:{ intros v Hv. unfold labels_of_cut. rewrite (nth_indep _ 0%nat (lab sg 0)) by (rewrite map_length, seq_length; auto). rewrite map_nth, seq_nth by auto. auto. }
    rewrite (esum_ext n fs (fun v => nth v y 0%nat) (lab tau) HF).
    2:{ intros v Hv. unfold lab, tau. rewrite Nat.add_comm. cbn [nth Nat.add]. rewrite (nth_indep _ false (0 =? 1)%nat) by (rewrite map_length; lia). rewrite (map_nth (fun l => (l =? 1)%nat) y 0%nat).
        rewrite Forall_forall in Hy. specialize (Hy (nth v y 0%nat) ltac:(apply nth_In; lia)). destruct (Nat.eqb_spec (nth v y 0%nat) 1); lia. }
    nia.
Qed.
