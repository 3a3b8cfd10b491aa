(** PrimalLPBound: the properties. *)
From Coq Require Import QArith Qcanon.
From Verif Require Import Base Values GmView GmViewSpec GmViewProofs ShapeSpec ConstraintModel HoeProofs DualDecompModel DualDecompSpec DualDecompProofs IcmProofs GgProofs DmcProofs LpbModel LpbSpec LpbProofs.
Open Scope nat_scope.

Section Props.
Variable g : gmv Qc.
Hypothesis W : wf_gmv g.
Variable M : Type.
Variable solve : (list nat -> Qc) -> list Qc -> list Qc -> option (Qc * M).
Notation n := (length (v_labels g)).
Notation do := (lb_do g M solve).
Notation run := (lb_run g M solve).
Notation new := (lb_new g M).
Notation inv := (inv g M solve).
Notation total_ok := (total_ok g M solve).
Notation sure := (sure M solve).

(** Making the object throws if a variable has several factors of its own, and otherwise succeeds. *)
Theorem C71_new : (exists s, new = Ret s /\ single_unaries g) \/ (new = Throw /\ ~ single_unaries g).
Proof.
  unfold lb_new. destruct (mapping_ok g W) as (m & E & _). rewrite E. cbn [bind]. destruct (duplicates_ok g W) as (b & E' & H). rewrite E'. cbn [bind]. destruct b; [right|left; eexists; split; [reflexivity|apply H; auto]]. split; auto. intros SU. apply H in SU. discriminate.
Qed.
Lemma new_inv : single_unaries g -> exists s, new = Ret s /\ inv s (vectors g []) /\ total_ok s (vectors g []) /\ lb_last s = None /\ forall f, nth f (lb_buf s) None = None.
Proof.
  intros SU. unfold lb_new. destruct (mapping_ok g W) as (m & E & MO). rewrite E. cbn [bind]. destruct (duplicates_ok g W) as (b & E' & H). rewrite E'. cbn [bind]. apply H in SU. subst b. eexists. split; [reflexivity|].
  assert (BN : forall f, nth f (repeat (@None Qc) (length (v_factors g))) None = None) by (intros; apply nth_repeat).
  split; [|split; [left; auto|split; auto]]. split; auto. split; [|split; [auto|split; [|intros _ _; split; auto]]].
  - split; [apply map_length|]. intros v Hv. unfold vectors. cbn [vectors_from]. rewrite (nth_indep _ [] (repeat 0%Qc 0)) by (rewrite map_length; auto). rewrite (map_nth (fun k => repeat 0%Qc k)), repeat_length. auto.
  - split; [apply repeat_length|]. intros f fc _. cbn [lb_buf]. rewrite BN. auto.
Qed.

Section Single.
Hypothesis SU : single_unaries g.
Definition step_vectors (X : list (list Qc)) (o : lop) : list (list Qc) := vectors_from X [o].
Lemma do_ok : forall s X o, inv s X -> lop_ok g o -> no_matrix o \/ sure -> exists s' r, do s o = Ret (s', r) /\ inv s' (step_vectors X o) /\ ((o = LTotal -> total_ok s X) -> right_answer solve g X o r) /\
  (total_ok s X \/ (exists v x, o = LSet v x) -> ~ (o = LTotal /\ r = LThrown) -> total_ok s' (step_vectors X o)) /\
  forall f, pair_factor g f -> ~ asks f o -> nth f (lb_buf s) None = None /\ lb_last s <> Some f -> nth f (lb_buf s') None = None /\ lb_last s' <> Some f.
Proof.
  intros s X o I L A. destruct o as [v x|v| |f|v|f]; cbn [lop_ok lb_do right_answer step_vectors vectors_from asks no_matrix] in *.
  - destruct L as [Hv LX]. destruct (set_ok g M solve s X v x I Hv LX) as (s' & E & I' & T' & LA & _ & B). exists s', LDone. split; auto. split; auto. split; auto. split; [intros _ _; left; auto|]. intros k _ _ [BN LN]. rewrite B, LA, BN. split; auto. destruct (in_dec _ _ _); auto.
  - destruct I as (EV & VO & R). unfold lb_getVariable. rewrite (rd_nth _ _ v []) by (rewrite EV; destruct VO; lia). cbn [bind]. exists s, (LNumbers (nth v (lb_var s) [])). split; auto. split; [split; auto|]. split; [rewrite EV; auto|]. split; auto. intros [H|(? & ? & H)] _; auto. discriminate.
  - destruct (total_value_ok g W M solve SU s X I) as (s' & r & E & I' & H). exists s', r. split; auto. split; auto. split; [intros T; apply H; auto|]. split.
    + intros [T|(? & ? & Z)] NT; [|discriminate]. apply (H T). intros Z. apply NT. auto.
    + intros f _ NA. exfalso. apply NA. auto.
  - destruct L as (fc & NE & L2). destruct (factor_ok g W M solve s X f fc I NE L2) as (s' & E & I' & T' & _ & B & LL). eexists _, _. split; [exact E|]. split; auto. split; [intros _ fc' NE'; rewrite NE in NE'; injection NE' as <-; auto|].
    split; [intros [H|(? & ? & H)] _; [|discriminate]; destruct H as [H|H]; [left|right]; rewrite T'; auto|]. intros k _ NA [BN LN]. rewrite B by auto. split; auto. destruct LL as [->| ->]; auto. congruence.
  - destruct (variable_ok g W M solve SU s X v I L) as (s' & E & I' & T' & LA & _ & B). eexists _, _. split; [exact E|]. split; auto. split; auto. split; [intros [H|(? & ? & H)] _; [|discriminate]; destruct H as [H|H]; [left|right]; rewrite T'; auto|]. intros k PK _ [BN LN]. rewrite B, LA by auto. auto.
  - destruct A as [[]|SR]. destruct (matrix_ok g W M solve s X f I SR L) as (s' & r & E & I' & T' & B & LL). exists s', r. split; auto. split; auto. split; auto. split; [intros [H|(? & ? & H)] _; [|discriminate]; destruct H as [H|H]; [left|right]; rewrite T'; auto|]. intros k _ NA [BN LN]. rewrite B by auto. split; auto. destruct LL as [->| ->]; auto. congruence.
Qed.
Definition allowed (o : lop) : Prop := lop_ok g o /\ (no_matrix o \/ sure).
Lemma vectors_cons : forall X o h, vectors_from X (o :: h) = vectors_from (step_vectors X o) h.
Proof. intros X [] h; auto. Qed.
Lemma run_from : forall h s rs0 X b, inv s X -> (b = true -> total_ok s X) -> Forall allowed h ->
  exists s' rs, foldM (fun (c : lpb M * list (lres M)) o => ' (s, r) <- do (fst c) o ;; Ret (s, snd c ++ [r])) h (s, rs0) = Ret (s', rs0 ++ rs) /\ inv s' (vectors_from X h) /\ (unbroken b h rs = true -> total_ok s' (vectors_from X h)) /\
  forall f, pair_factor g f -> Forall (fun o => ~ asks f o) h -> nth f (lb_buf s) None = None /\ lb_last s <> Some f -> nth f (lb_buf s') None = None /\ lb_last s' <> Some f.
Proof.
  induction h as [|o h IH]; intros s rs0 X b I T F; cbn [foldM]. { exists s, []. rewrite app_nil_r. auto. }
  apply Forall_cons_iff in F. destruct F as [[LO AL] F]. destruct (do_ok s X o I LO AL) as (s1 & r & E & I1 & _ & T1 & N1). cbn [fst snd]. rewrite E. cbn [bind].
  set (b1 := match o, r with LSet _ _, _ => true | LTotal, LThrown => false | _, _ => b end). destruct (IH s1 (rs0 ++ [r]) (step_vectors X o) b1 I1) as (s2 & rs & E2 & I2 & T2 & N2); auto.
  { unfold b1. intros B. apply T1. - destruct o; eauto; left; apply T; destruct r; auto; discriminate. - intros [-> ->]. discriminate. }
  exists s2, (r :: rs). rewrite <- app_assoc in E2. split; auto. rewrite vectors_cons. split; auto. split.
  - intros U. apply T2. unfold b1. destruct o, r; exact U.
  - intros f PF NA H. apply Forall_cons_iff in NA. destruct NA. auto.
Qed.
Lemma run_ok : forall h, Forall allowed h -> exists s rs, run h = Ret (s, rs) /\ inv s (vectors g h) /\ (unbroken true h rs = true -> total_ok s (vectors g h)) /\
  forall f, pair_factor g f -> Forall (fun o => ~ asks f o) h -> nth f (lb_buf s) None = None /\ lb_last s <> Some f.
Proof.
  intros h F. destruct (new_inv SU) as (s0 & E & I & T & LN & BN). unfold lb_run. rewrite E. cbn [bind]. destruct (run_from h s0 [] (vectors g []) true I (fun _ => T) F) as (s & rs & E2 & I2 & T2 & N2). exists s, rs. split; auto. split; auto. split; auto. intros f PF NA. apply N2; auto. split; auto. congruence.
Qed.

(** After any calls, a value is that computed anew for the vectors that were set last: of a variable, of a factor, and, if getTotalValue() has not thrown since the last
    setVariable(), of the whole model; and it throws exactly if the solver does or a factor has more than two variables or none.  (Calls of getFactorVariable() are
    included if the solver never throws.) *)
Theorem C71_values : forall h o, Forall allowed h -> allowed o -> exists s rs s' r, run h = Ret (s, rs) /\ do s o = Ret (s', r) /\ (unbroken true h rs = true \/ o <> LTotal -> right_answer solve g (vectors g h) o r).
Proof.
  intros h o F [LO AL]. destruct (run_ok h F) as (s & rs & E & I & T & _). destruct (do_ok s _ o I LO AL) as (s' & r & E' & _ & R & _). exists s, rs, s', r. split; auto. split; auto. intros [U|U]; apply R; intros; auto; contradiction.
Qed.
(** getFactorVariable() of a factor gives the solution for the vectors that were set if neither it nor getFactorValue() of this factor nor getTotalValue() was called before. *)
Theorem C71_solution_first : forall h f fc v w, Forall allowed h -> nth_error (v_factors g) f = Some fc -> fst fc = [v; w] -> Forall (fun o => ~ asks f o) h ->
  exists s rs s', run h = Ret (s, rs) /\ do s (LMatrix f) = Ret (s', match solve (snd fc) (nth v (vectors g h) []) (nth w (vectors g h) []) with Some (q, m) => LSolution q m | None => LThrown end).
Proof.
  intros h f fc v w F NE EF NA. destruct (run_ok h F) as (s & rs & E & I & _ & N). destruct (N f) as [BN LN]; auto. { exists fc. rewrite EF. auto. } destruct (matrix_fresh g W M solve s _ f fc v w I NE EF BN LN) as (s' & E'). exists s, rs, s'. auto.
Qed.
(** It does so, too, if a vector of the factor was set and then getFactorValue() of this factor gave a value. *)
Theorem C71_solution_value : forall h f fc v w u x q m, Forall allowed h -> nth_error (v_factors g) f = Some fc -> fst fc = [v; w] -> u = v \/ u = w -> lop_ok g (LSet u x) ->
  let X := vectors g (h ++ [LSet u x]) in solve (snd fc) (nth v X []) (nth w X []) = Some (q, m) ->
  exists s rs s', run (h ++ [LSet u x; LFactor f]) = Ret (s, rs ++ [LDone; LValue q]) /\ do s (LMatrix f) = Ret (s', LSolution q m).
Proof.
  intros h f fc v w u x q m F NE EF HU [Hu LX] X SE. destruct (run_ok h F) as (s & rs & E & I & _ & _). destruct (set_ok g M solve s _ u x I Hu LX) as (s1 & E1 & I1 & _ & _ & _ & B1).
  assert (EX : X = upd (vectors g h) u x). { unfold X, vectors. generalize (map (fun k => repeat 0%Qc k) (v_labels g)). clear. induction h as [|o h IH]; intros l; auto. destruct o; cbn; auto. }
  rewrite EX in SE. assert (BN : nth f (lb_buf s1) None = None). { rewrite B1. destruct (in_dec _ _ _) as [|N]; auto. exfalso. apply N. apply (v_adj_spec Qc g). exists fc. split; auto. rewrite EF. destruct HU as [->| ->]; cbn; auto. }
  destruct (factor_ok g W M solve s1 _ f fc I1 NE) as (s2 & E2 & _ & _ & FR & _). { rewrite EF. auto. } specialize (FR BN). unfold contribution in E2. rewrite EF, SE in *. destruct FR as [L2 S2]. exists s2, rs, s2. split.
  - unfold lb_run in *. destruct new as [s0| | |]; cbn [bind] in *; try discriminate. rename E into E0. rewrite foldM_app, E0. cbn [bind foldM fst snd lb_do]. rewrite E1. cbn [bind fst snd]. rewrite E2. cbn [bind]. rewrite <- app_assoc. auto.
  - cbn [lb_do]. unfold lb_getFactorVariable. rewrite L2, Nat.eqb_refl. cbn [bind]. rewrite S2. auto.
Qed.

(** ** Labelings *)
Lemma qsum_only : forall (f : nat -> Qc) k l, l < k -> (forall i, i < k -> i <> l -> f i = 0%Qc) -> qsum f (seq 0 k) = f l.
Proof.
  intros f k l Hl H. assert (G : forall m a, (l < a \/ a + m <= l -> a + m <= k -> qsum f (seq a m) = 0%Qc) /\ (a <= l < a + m -> a + m <= k -> qsum f (seq a m) = f l)).
  { induction m as [|m IH]; intros a; cbn [seq]. { split; [intros; apply qsum_nil|lia]. } rewrite qsum_cons. destruct (IH (S a)) as [I1 I2]. split; intros.
    - rewrite I1, H by lia. ring.
    - destruct (Nat.eq_dec a l) as [->|D]; [rewrite I1 by lia; ring|]. rewrite I2, H by lia. ring. }
  apply (G k 0); lia.
Qed.
Lemma qsum_zero_all : forall (f : nat -> Qc) l, (forall i, In i l -> 0 <= f i)%Qc -> qsum f l = 0%Qc -> forall i, In i l -> f i = 0%Qc.
Proof.
  induction l as [|a l IH]; intros P Z i I; [contradiction|]. rewrite qsum_cons in Z. assert (PA : (0 <= f a)%Qc) by (apply P; left; auto). assert (PL : (0 <= qsum f l)%Qc). { rewrite <- (qsum_zero _ (fun _ => 0%Qc) l) by auto. apply qsum_le. intros; apply P; right; auto. }
  assert (ZA : f a = 0%Qc) by (apply Qcle_antisym; auto; rewrite <- Z; qlra). assert (ZL : qsum f l = 0%Qc) by (rewrite ZA in Z; rewrite Qcplus_0_l in Z; auto). destruct I as [<-|I]; auto. apply IH; auto. intros; apply P; right; auto.
Qed.
Lemma nth_indicator : forall k l i, i < k -> nth i (indicator k l) 0%Qc = if i =? l then 1%Qc else 0%Qc.
Proof. intros k l i H. unfold indicator. apply (nth_map_seq_any Qc (fun i => if i =? l then 1%Qc else 0%Qc)). auto. Qed.
Lemma length_indicator : forall k l, length (indicator k l) = k.
Proof. intros. unfold indicator. rewrite map_length, seq_length. auto. Qed.
Lemma inner_indicator : forall k l t, l < k -> inner (indicator k l) t = t [l].
Proof.
  intros k l t H. unfold inner. rewrite length_indicator, (qsum_only _ k l) by (auto; intros i Hi D; rewrite nth_indicator by auto; apply Nat.eqb_neq in D; rewrite D; ring). rewrite nth_indicator, Nat.eqb_refl by auto. ring.
Qed.
Variable entry : M -> nat -> nat -> Qc.
Hypothesis TR : transport entry solve.
Lemma solve_indicator : forall t k l k' l' q m, l < k -> l' < k' -> solve t (indicator k l) (indicator k' l') = Some (q, m) -> q = t [l; l'].
Proof.
  intros t k l k' l' q m Hl Hl' E. destruct (TR _ _ _ _ _ E) as (P & R & C & ->). rewrite !length_indicator in *.
  assert (Z1 : forall i j, i < k -> j < k' -> i <> l -> entry m i j = 0%Qc). { intros i j Hi Hj D. specialize (R i Hi). rewrite nth_indicator in R by auto. apply Nat.eqb_neq in D. rewrite D in R. apply (qsum_zero_all (fun j => entry m i j) (seq 0 k')); auto. apply in_seq. lia. }
  assert (Z2 : forall i j, i < k -> j < k' -> j <> l' -> entry m i j = 0%Qc). { intros i j Hi Hj D. specialize (C j Hj). rewrite nth_indicator in C by auto. apply Nat.eqb_neq in D. rewrite D in C. apply (qsum_zero_all (fun i => entry m i j) (seq 0 k)); auto. apply in_seq. lia. }
  rewrite (qsum_only _ k l) by (auto; intros i Hi D; apply qsum_zero; intros j Hj; apply in_seq in Hj; rewrite Z1 by (auto; lia); ring).
  rewrite (qsum_only _ k' l') by (auto; intros j Hj D; rewrite Z2 by auto; ring). specialize (R l Hl). rewrite nth_indicator, Nat.eqb_refl in R by auto. rewrite (qsum_only _ k' l') in R by (auto; intros j Hj D; apply Z2; auto). rewrite R. ring.
Qed.
(** If the vectors are those of the labels of a labeling, the total value, if there is one, is the value of the labeling. *)
Theorem C71_labeling : forall h x q s rs s', Forall allowed h -> labeling g x -> (forall v, v < n -> nth v (vectors g h) [] = indicator (nth v (v_labels g) 0) (nth v x 0)) ->
  run h = Ret (s, rs) -> unbroken true h rs = true -> do s LTotal = Ret (s', LValue q) -> q = total AdderQ g x.
Proof.
  intros h x q s rs s' F LX EX R U E. destruct (C71_values h LTotal F) as (s1 & rs1 & s2 & r & E1 & E2 & H). { split; cbn; auto. } rewrite R in E1. injection E1 as <- <-. rewrite E in E2. injection E2 as <- <-. specialize (H (or_introl U)). cbn [right_answer] in H.
  destruct (sum_all _) as [q'|] eqn:ES; [|discriminate]. injection H as ->. change (total AdderQ g x) with (energy g x). rewrite energy_sum.
  assert (G : forall l q, (forall fc, In fc l -> In fc (v_factors g)) -> sum_all (map (contribution solve (vectors g h)) l) = Some q -> q = qsum (fun fc => snd fc (at_vars x (fst fc))) l).
  { clear - W LX EX TR. induction l as [|fc l IH]; intros q HI E; cbn [map sum_all] in E. { injection E as <-. auto. } rewrite qsum_cons. destruct (contribution solve (vectors g h) fc) as [a|] eqn:EC; [|discriminate]. destruct (sum_all _) as [b|]; [|discriminate]. injection E as <-. f_equal; [|apply IH; auto; intros; apply HI; right; auto].
    destruct W as [WF _]. rewrite Forall_forall in WF. destruct (WF fc (HI fc (or_introl eq_refl))) as [_ FB]. assert (LL : forall v, v < n -> nth v x 0 < nth v (v_labels g) 0) by (intros v Hv; apply (AStarSearch.in_shape_lt _ _ v LX Hv)).
    destruct fc as [[|v [|w [|? ?]]] t]; unfold contribution in EC; cbn [fst snd] in *; try discriminate.
    - inversion FB; subst. rewrite EX in EC by auto. injection EC as <-. apply inner_indicator. auto.
    - inversion FB as [|? ? Hv FB2]; subst. inversion FB2 as [|? ? Hw _]; subst. rewrite !EX in EC by auto. destruct (solve t _ _) as [[c m]|] eqn:E; [|discriminate]. injection EC as <-. apply (solve_indicator _ _ _ _ _ _ _ (LL v Hv) (LL w Hw) E). }
  apply G; auto.
Qed.
End Single.
End Props.
Print Assumptions C71_new.
Print Assumptions C71_values.
Print Assumptions C71_solution_first.
Print Assumptions C71_solution_value.
Print Assumptions C71_labeling.

(** ** A solver, for the examples: the product of the two distributions *)
Definition qsum_of (x : list Qc) : Qc := qsum (fun i => nth i x 0%Qc) (seq 0 (length x)).
Definition distribution (x : list Qc) : bool := forallb (fun q => negb (Qc_lt q 0)) x && (if Qc_eq_dec (qsum_of x) 1 then true else false).
Definition product (t : list nat -> Qc) (a b : list Qc) : option (Qc * (list Qc * list Qc)) :=
  if distribution a && distribution b then Some (qsum (fun i => qsum (fun j => nth i a 0 * nth j b 0 * t [i; j])%Qc (seq 0 (length b))) (seq 0 (length a)), (a, b)) else None.
Definition product_entry (m : list Qc * list Qc) (i j : nat) : Qc := (nth i (fst m) 0 * nth j (snd m) 0)%Qc.
Lemma product_transport : transport product_entry product.
Proof.
  intros t a b q m E. unfold product in E. destruct (distribution a) eqn:DA; [|discriminate]. destruct (distribution b) eqn:DB; [|discriminate]. injection E as <- <-. unfold product_entry. cbn [fst snd].
  assert (NN : forall x i, distribution x = true -> (0 <= nth i x 0)%Qc). { intros x i D. unfold distribution in D. apply andb_true_iff in D. destruct D as [D _]. destruct (Nat.lt_ge_cases i (length x)) as [H|H]; [|rewrite nth_overflow by auto; apply Qcle_refl]. rewrite forallb_forall in D. specialize (D _ (nth_In x 0%Qc H)). unfold Qc_lt in D. destruct (Qclt_le_dec _ _); [discriminate|auto]. }
  assert (S1 : forall x, distribution x = true -> qsum (fun i => nth i x 0%Qc) (seq 0 (length x)) = 1%Qc). { intros x D. unfold distribution in D. apply andb_true_iff in D. destruct D as [_ D]. destruct (Qc_eq_dec _ _); [auto|discriminate]. }
  split; [intros i j; pose proof (Qcmult_le_compat_r 0 (nth i a 0%Qc) (nth j b 0%Qc) (NN a i DA) (NN b j DB)) as Z; rewrite Qcmult_0_l in Z; exact Z|]. split; [intros i Hi; rewrite qsum_scale, S1 by auto; ring|]. split; auto.
  intros j Hj. rewrite (qsum_ext _ _ (fun i => nth j b 0 * nth i a 0)%Qc) by (intros; ring). rewrite qsum_scale, S1 by auto. ring.
Qed.
Definition lp_gm : gmv Qc := mkGmv [2; 2; 2] [([0], fun c => Qc_of (hd 0 c)); ([0; 1], fun c => Qc_of (3 * hd 0 c + nth 1 c 0)); ([1; 2], fun c => Qc_of (5 * hd 0 c + 2 * nth 1 c 0))].
Definition one0 : list Qc := indicator 2 0.
Definition one1 : list Qc := indicator 2 1.
Definition halves : list Qc := [Q2Qc (1 # 2); Q2Qc (1 # 2)].
Lemma lp_gm_wf : wf_gmv lp_gm /\ single_unaries lp_gm.
Proof. split; [split; [repeat constructor|repeat constructor]|]. intros v. destruct v as [|v]; cbn; lia. Qed.
Definition results (o : outcome (lpb (list Qc * list Qc) * list (lres (list Qc * list Qc)))) := ' (s, rs) <- o ;; Ret rs.
Definition is_thrown (r : lres (list Qc * list Qc)) : bool := match r with LThrown => true | _ => false end.

(** The solution is that of the vectors before the last setVariable(), and stays so. *)
Theorem C71_solution_stale_refuted : let h := [LSet 0 one0; LSet 1 one0; LMatrix 1; LSet 0 one1] in Forall (lop_ok lp_gm) (h ++ [LMatrix 1]) /\
  exists q, results (lb_run lp_gm _ product (h ++ [LMatrix 1])) = Ret [LDone; LDone; LSolution q (one0, one0); LDone; LSolution q (one0, one0)] /\
  product (fun c => Qc_of (3 * hd 0 c + nth 1 c 0)) (nth 0 (vectors lp_gm h) []) (nth 1 (vectors lp_gm h) []) = Some (Qc_of 3, (one1, one0)).
Proof.
  split. { repeat constructor; cbn; auto; try lia; eexists; split; reflexivity. } eexists. split; vm_compute; reflexivity.
Qed.
(** The solution is that of another factor if the value of the factor is known already. *)
Theorem C71_solution_other_refuted : let h := [LSet 0 one0; LSet 1 one0; LSet 2 one1] in Forall (lop_ok lp_gm) (h ++ [LMatrix 1; LMatrix 2; LMatrix 1]) /\
  exists q q', results (lb_run lp_gm _ product (h ++ [LMatrix 1; LMatrix 2; LMatrix 1])) = Ret [LDone; LDone; LDone; LSolution q (one0, one0); LSolution q' (one0, one1); LSolution q' (one0, one1)].
Proof. split. { repeat constructor; cbn; auto; try lia; eexists; split; reflexivity. } eexists _, _. vm_compute. reflexivity. Qed.
(** After an exception the total value is that of some of the factors. *)
Theorem C71_total_again_refuted : let h := [LSet 0 one1; LTotal] in Forall (lop_ok lp_gm) h /\ sum_all (map (contribution product (vectors lp_gm h)) (v_factors lp_gm)) = None /\ results (lb_run lp_gm _ product (h ++ [LTotal])) = Ret [LDone; LThrown; LValue (Qc_of 1)].
Proof. split. { repeat constructor; cbn; auto; lia. } split; vm_compute; reflexivity. Qed.
(** getFactorValue() of a factor of one variable reads beyond its variables, instead of throwing. *)
Theorem C71_unary_factor_refuted : results (lb_run lp_gm _ product [LSet 0 one0; LFactor 0]) = Undef.
Proof. vm_compute. reflexivity. Qed.
(** The solution of a factor after the solver has thrown for another *)
Theorem C71_after_exception_refuted : let h := [LSet 0 one0; LSet 1 one0; LMatrix 1; LFactor 2; LMatrix 1] in Forall (lop_ok lp_gm) h /\ results (lb_run lp_gm _ product h) = Undef.
Proof. split. { repeat constructor; cbn; auto; try lia; eexists; split; reflexivity. } vm_compute. reflexivity. Qed.
Print Assumptions C71_solution_stale_refuted.
Print Assumptions C71_solution_other_refuted.
Print Assumptions C71_total_again_refuted.
Print Assumptions C71_unary_factor_refuted.
Print Assumptions C71_after_exception_refuted.

(** A history with fractional vectors: values before and after a vector is changed *)
Example C71_ex : let h := [LSet 0 halves; LSet 1 one0; LSet 2 one1; LTotal; LFactor 1; LSet 1 one1; LFactor 1; LVar 0; LVar 1] in Forall (allowed lp_gm _ product) h /\
  results (lb_run lp_gm _ product h) = Ret [LDone; LDone; LDone; LValue (Qc_of 4); LValue (Q2Qc (3 # 2)); LDone; LValue (Q2Qc (5 # 2)); LValue (Q2Qc (1 # 2)); LValue (Qc_of 0)] /\
  results (lb_run lp_gm _ product (h ++ [LTotal])) = Ret [LDone; LDone; LDone; LValue (Qc_of 4); LValue (Q2Qc (3 # 2)); LDone; LValue (Q2Qc (5 # 2)); LValue (Q2Qc (1 # 2)); LValue (Qc_of 0); LValue (Qc_of 10)].
Proof. split. { repeat (constructor; [split; [cbn; repeat constructor; try (eexists; split; reflexivity)|left; cbn; exact I]|]). constructor. } split; vm_compute; reflexivity. Qed.
Example C71_ex_labeling : let h := [LSet 0 one1; LSet 1 one0; LSet 2 one1] in labeling lp_gm [1; 0; 1] /\ (forall v, v < 3 -> nth v (vectors lp_gm h) [] = indicator (nth v (v_labels lp_gm) 0) (nth v [1; 0; 1] 0)) /\
  results (lb_run lp_gm _ product (h ++ [LTotal])) = Ret [LDone; LDone; LDone; LValue (Qc_of 6)] /\ total AdderQ lp_gm [1; 0; 1] = Qc_of 6.
Proof. split; [repeat constructor|]. split; [intros [|[|[|v]]] H; [reflexivity|reflexivity|reflexivity|lia]|]. split; vm_compute; reflexivity. Qed.
Example C71_ex_duplicates : results (lb_run (mkGmv [2] [([0], fun _ => 0%Qc); ([0], fun _ => 0%Qc)]) _ product []) = Throw.
Proof. vm_compute. reflexivity. Qed.
