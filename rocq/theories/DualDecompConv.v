(** Proofs about dual decomposition: convergence of the subgradient method. *)
From Coq Require Import ZArith QArith Qcanon Sorted.
From Verif Require Import Base Values GmView GmViewSpec GmViewProofs ShapeSpec ShapeProofs UtilModel ConstraintModel ConstraintSpec ConstraintProofs ConstraintCounts MpModel DecompModel DecompSpec DecompProofs DecompReorder DecompBuild DualDecompModel DualDecompSpec DualDecompProofs DualDecompInv DualDecompStep DualDecompBounds DualDecompRun.
Open Scope nat_scope.

Lemma sumq_qsum : forall A (f : A -> Qc) l, sumq f l = qsum f l. Proof. reflexivity. Qed.
Lemma qsum_swap : forall A B (f : A -> B -> Qc) l k, qsum (fun a => qsum (f a) k) l = qsum (fun b => qsum (fun a => f a b) l) k.
Proof. intros A B f l k. induction l as [|a l IH]. { rewrite qsum_nil. symmetry. apply qsum_zero. auto. } rewrite qsum_cons, IH, <- qsum_plus. apply qsum_ext. intros b _. rewrite qsum_cons. auto. Qed.
Lemma square_pos : forall a, (0 <= square a)%Qc.
Proof. intros a. unfold square. destruct (Qclt_le_dec a 0) as [H|H]. { replace (a * a)%Qc with ((- a) * (- a))%Qc by ring. assert (0 <= - a)%Qc by qc. replace 0%Qc with (0 * (- a))%Qc by ring. apply Qcmult_le_compat_r; auto. } replace 0%Qc with (0 * a)%Qc by ring. apply Qcmult_le_compat_r; auto. Qed.
Lemma qsum_pos : forall A (f : A -> Qc) l, (forall a, In a l -> 0 <= f a)%Qc -> (0 <= qsum f l)%Qc.
Proof. intros A f l H. rewrite <- (qsum_zero A (fun _ => 0%Qc) l) by auto. apply qsum_le. auto. Qed.
(** picking one term *)
Lemma qsum_pick : forall (f : nat -> Qc) n k, k < n -> qsum (fun o => if k =? o then f o else 0)%Qc (seq 0 n) = f k.
Proof.
  intros f n k H. induction n as [|n IH]; [lia|]. rewrite seq_S, qsum_app, qsum_cons, qsum_nil. cbn [plus]. destruct (Nat.eq_dec k n) as [->|NE].
  - rewrite (qsum_zero nat _ (seq 0 n)). { rewrite Nat.eqb_refl. ring. } intros a I. apply in_seq in I. destruct (Nat.eqb_spec n a); [lia|auto].
  - rewrite IH by lia. destruct (Nat.eqb_spec k n); [lia|]. ring.
Qed.
Lemma qsum_hit : forall off (f : nat -> Qc) n i, off i < n -> qsum (fun o => hit off o i * f o)%Qc (seq 0 n) = f (off i).
Proof. intros off f n i H. rewrite <- (qsum_pick f n (off i) H). apply qsum_ext. intros o _. unfold hit. destruct (off i =? o); ring. Qed.

(** ** One block *)
Section Block.
Variables (n size : nat) (off : nat -> nat).
Hypothesis NP : 0 < n.
Hypothesis OB : forall i, i < n -> off i < size.
Let grad (i o : nat) : Qc := (hit off o i - 1 / Qc_of n * hits off n o)%Qc.
Lemma grad_inner : forall D : nat -> nat -> Qc, (forall o, qsum (fun i => D i o) (seq 0 n) = 0%Qc) ->
  qsum (fun i => qsum (fun o => grad i o * D i o)%Qc (seq 0 size)) (seq 0 n) = qsum (fun i => D i (off i)) (seq 0 n).
Proof.
  intros D Z. unfold grad. transitivity (qsum (fun i => D i (off i) + - (1 / Qc_of n) * qsum (fun o => hits off n o * D i o) (seq 0 size))%Qc (seq 0 n)).
  - apply qsum_ext. intros i I. apply in_seq in I. rewrite <- (qsum_hit off (D i) size i) by (apply OB; lia). rewrite <- qsum_scale, <- qsum_plus. apply qsum_ext. intros o _. ring.
  - rewrite qsum_plus, qsum_scale, qsum_swap. rewrite (qsum_zero nat _ (seq 0 size)). { ring. } intros o _. rewrite qsum_scale, Z. ring.
Qed.
Lemma grad_norm : (qsum (fun i => qsum (fun o => square (grad i o)) (seq 0 size)) (seq 0 n) <= Qc_of n)%Qc.
Proof.
  assert (NZ := Qc_of_nz n NP). rewrite qsum_swap. apply (Qcle_trans _ (qsum (fun o => hits off n o) (seq 0 size))).
  - apply qsum_le. intros o _. rewrite (qsum_ext _ _ (fun i => (hit off o i + - ((1 + 1) * (1 / Qc_of n) * hits off n o) * hit off o i) + square (1 / Qc_of n * hits off n o))%Qc).
    + rewrite !qsum_plus, qsum_scale, qsum_const, seq_length. fold (hits off n o). set (h := hits off n o). unfold square. replace (h + - ((1 + 1) * (1 / Qc_of n) * h) * h + Qc_of n * (1 / Qc_of n * h * (1 / Qc_of n * h)))%Qc with (h - 1 / Qc_of n * square h)%Qc by (unfold square; field; auto).
      assert (0 <= 1 / Qc_of n * square h)%Qc; [|qc]. replace 0%Qc with (0 * square h)%Qc by ring. apply Qcmult_le_compat_r; [|apply square_pos]. apply Qclt_le_weak. assert (P := Qc_of_pos n NP). unfold Qcdiv. rewrite Qcmult_1_l. destruct (Qclt_le_dec 0 (/ Qc_of n)) as [Q|Q]; auto. exfalso.
      assert (Qc_of n * / Qc_of n <= 0)%Qc. { rewrite Qcmult_comm. replace 0%Qc with (0 * Qc_of n)%Qc by ring. apply Qcmult_le_compat_r; auto. apply Qclt_le_weak. auto. } rewrite Qcmult_inv_r in H by auto. apply H. reflexivity.
    + intros i _. unfold grad, square, hit. destruct (off i =? o); ring.
  - unfold hits. rewrite qsum_swap. rewrite (qsum_ext _ _ (fun _ => 1%Qc)). { rewrite qsum_const, seq_length. rewrite Qcmult_1_r. apply Qcle_refl. }
    intros i I. apply in_seq in I. rewrite <- (qsum_hit off (fun _ => 1%Qc) size i) by (apply OB; lia). apply qsum_ext. intros o _. ring.
Qed.
Lemma block_step : forall (A B B' : nat -> nat -> Qc) s, (forall o, qsum (fun i => A i o) (seq 0 n) = 0%Qc) -> (forall o, qsum (fun i => B i o) (seq 0 n) = 0%Qc) ->
  (forall i o, i < n -> B' i o = (B i o + s * grad i o)%Qc) ->
  (qsum (fun i => qsum (fun o => square (A i o - B' i o)) (seq 0 size)) (seq 0 n) <=
   qsum (fun i => qsum (fun o => square (A i o - B i o)) (seq 0 size)) (seq 0 n) - (1 + 1) * s * (qsum (fun i => A i (off i)) (seq 0 n) - qsum (fun i => B i (off i)) (seq 0 n)) + square s * Qc_of n)%Qc.
Proof.
  intros A B B' s ZA ZB MV. assert (G := grad_norm). assert (IN := grad_inner (fun i o => A i o - B i o)%Qc). cbn beta in IN. rewrite (qsum_ext nat (fun i => A i (off i) - B i (off i))%Qc (fun i => A i (off i) + - B i (off i))%Qc) in IN by auto. rewrite qsum_plus, qsum_opp in IN.
  assert (Z : forall o, qsum (fun i => A i o - B i o)%Qc (seq 0 n) = 0%Qc). { intros o. unfold Qcminus. rewrite qsum_plus, qsum_opp, ZA, ZB. ring. } specialize (IN Z). clear Z.
  apply (Qcle_trans _ (qsum (fun i => qsum (fun o => square (A i o - B i o)) (seq 0 size)) (seq 0 n) + - ((1 + 1) * s) * qsum (fun i => qsum (fun o => grad i o * (A i o - B i o)) (seq 0 size)) (seq 0 n) + square s * qsum (fun i => qsum (fun o => square (grad i o)) (seq 0 size)) (seq 0 n))%Qc).
  - rewrite <- !qsum_scale, <- !qsum_plus. apply qsum_le. intros i I. apply in_seq in I. rewrite <- !qsum_scale, <- !qsum_plus. apply qsum_le. intros o _. rewrite MV by lia. unfold square. match goal with |- (?a <= ?b)%Qc => replace a with b by ring end. apply Qcle_refl.
  - rewrite IN. assert (square s * qsum (fun i => qsum (fun o => square (grad i o)) (seq 0 size)) (seq 0 n) <= square s * Qc_of n)%Qc. { rewrite !(Qcmult_comm (square s)). apply Qcmult_le_compat_r; auto. apply square_pos. }
    match goal with |- (?a + ?b + ?x <= _)%Qc => apply (Qcle_trans _ (a + b + square s * Qc_of n)%Qc) end. { apply Qcplus_le_compat; auto. apply Qcle_refl. } match goal with |- (?a <= ?b)%Qc => replace a with b by ring end. apply Qcle_refl.
Qed.
End Block.

(** ** The values of the submodels depend linearly on the dual variables *)
Definition dpart (states : list (list nat)) (B : block) : Qc := qsum (fun i => tab (b_duals B) i (off_of states B i)) (seq 0 (length (b_duals B))).
Section Conv.
Variable gm : gmv Qc.
Hypothesis WF : wf_gmv gm.
Notation nv := (length (v_labels gm)).
Notation fs := (map fst (v_factors gm)).
Variable d : dec.
Hypothesis DC : decomposes nv fs d.
Hypothesis OR : ordered d.
Hypothesis NM : 0 < d_nm d.
Notation groups := (groups gm d).
Notation specs := (specs gm).
Notation Entries := (entries 0 groups).

Definition vpart (states : list (list nat)) (e : entry) : Qc :=
  match e_view (snd (snd e)) with Some (f, scale) => scale * snd (nth f (v_factors gm) ([], fun _ => 0)) (at_vars (nth (fst e) states []) (fst (snd e))) | None => 0 end%Qc.
Definition upart (states : list (list nat)) (bs : list block) (e : entry) : Qc :=
  match e_dual (snd (snd e)) with
   | Some (b, i) => let B := nth b bs (mkBlock [] [] []) in nth (index_of (b_shape B) (at_vars (nth (fst e) states []) (fst (snd e)))) (nth i (b_duals B) []) 0
   | None => 0 end%Qc.
Lemma entries_duals : forall states l pre rest, Forall2 good_block (specs l) rest -> qsum (upart states (pre ++ rest)) (entries (length pre) l) = qsum (dpart states) rest.
Proof.
  intros states. induction l as [|g l IH]; intros pre rest G; cbn [entries]. { inversion G. reflexivity. }
  rewrite qsum_app. cbn [DualDecompProofs.specs flat_map] in G. unfold g_next. unfold spec_of at 1 in G. unfold g_entries. destruct (g_has g).
  - inversion G as [|? B ? rest' G1 G2]; subst. replace (pre ++ B :: rest') with ((pre ++ [B]) ++ rest') by (rewrite <- app_assoc; auto). replace (S (length pre)) with (length (pre ++ [B])) by (rewrite app_length; cbn; lia). rewrite (IH (pre ++ [B]) rest' G2). rewrite (qsum_cons _ (dpart states)). f_equal.
    destruct G1 as [G1 [G3 [G4 _]]]. cbn [fst snd] in *. rewrite qsum_map. unfold dpart. rewrite G4. apply qsum_ext. intros i _. unfold upart, dual_entry. cbn [fst snd e_dual]. rewrite <- app_assoc. cbn [app]. rewrite app_nth2, Nat.sub_diag by lia. cbn [nth]. unfold tab, off_of. cbv zeta. rewrite G1. reflexivity.
  - cbn [app] in G. rewrite (IH pre rest G). match goal with |- (?a + ?b)%Qc = ?b => assert (Z : a = 0%Qc) end; [|rewrite Z; ring]. apply qsum_zero. intros e I. destruct (g_factor g); [|destruct I]. apply in_map_iff in I. destruct I as [s [<- _]]. reflexivity.
Qed.
Lemma total_parts : forall st states, INV gm d st -> sum_states gm d st states = (qsum (vpart states) Entries + qsum (dpart states) (dd_blocks st))%Qc.
Proof.
  intros st states H. rewrite <- (entries_duals states groups [] (dd_blocks st) (iv_blocks _ _ _ H)). cbn [app length]. rewrite <- qsum_plus.
  rewrite <- (qsum_split _ (fun e => vpart states e + upart states (dd_blocks st) e)%Qc fst (d_nm d)). 2: { apply Forall_forall. intros e I. apply (entry_ok gm WF d DC OR e I). }
  apply qsum_ext. intros m Hm. apply in_seq in Hm. rewrite energy_sum. cbn [sub_model v_factors]. rewrite (iv_factors _ _ _ H), (nth_dist d) by lia. rewrite !qsum_map. apply qsum_ext. intros e I. apply filter_In in I. destruct I as [_ E]. apply Nat.eqb_eq in E. subst m. reflexivity.
Qed.

(** ** One step *)
Lemma zero_sum_tab : forall D o, zero_sum D -> qsum (fun i => tab D i o) (seq 0 (length D)) = 0%Qc. Proof. intros D o H. apply H. Qed.
Lemma offsets_ok : forall st states s B i, INV gm d st -> states_ok gm d st states -> In s (specs groups) -> good_block s B -> i < length (b_duals B) -> off_of states B i < size_of (b_shape B).
Proof.
  intros st states s B i I ST Is [G1 [G2 [G3 _]]] Hi. destruct (specs_in gm d s Is) as [g [Ig [Hg ->]]]. cbn [fst snd] in *. destruct (gradient_ok gm d DC st states g (nth i (g_subs g) nosub) I ST Ig) as [_ P]. { apply nth_In. lia. }
  unfold off_of. rewrite G1, G2. apply index_of_lt. auto.
Qed.
Lemma distance_step : forall st states s bs bs', INV gm d st -> states_ok gm d st states -> good_blocks gm d bs -> Forall2 (moved s states) (dd_blocks st) bs' ->
  (distance2 bs' bs <= distance2 (dd_blocks st) bs - (1 + 1) * s * (qsum (dpart states) bs - qsum (dpart states) (dd_blocks st)) + square s * tables bs')%Qc.
Proof.
  intros st states s bs bs' I ST GA MV. assert (GB := iv_blocks _ _ _ I). unfold good_blocks in *. assert (IN : forall x, In x (specs groups) -> In x (specs groups)) by auto. revert IN GA GB MV. generalize (dd_blocks st). generalize (specs groups) at 1 3 4.
  intros l bb IN GA. revert bb bs'. induction GA as [|x A l bs G1 G2 IH]; intros bb bs' GB MV.
  - inversion GB; subst. inversion MV; subst. unfold distance2, tables. cbn. qc.
  - inversion GB as [|? B ? bb' G3 G4]; subst. inversion MV as [|? B' ? bs1 M1 M2]; subst. assert (IH' := IH ltac:(intros; apply IN; right; auto) bb' bs1 G4 M2). clear IH.
    unfold distance2, tables in *. cbn [combine] in *. rewrite !sumq_qsum in *. rewrite !qsum_cons. cbn [fst snd] in *.
    destruct M1 as [M3 [M4 [M5 M6]]]. assert (Ix : In x (specs groups)) by (apply IN; left; auto). destruct (specs_in gm d x Ix) as [g [_ [Hg Ex]]]. destruct (has_nonempty g Hg) as [LG _]. assert (OF := fun i => offsets_ok st states x B i I ST Ix G3).
    destruct G1 as [A1 [A2 [A3 [A4 A5]]]]. destruct G3 as [B1 [B2 [B3 [B4 B5]]]]. rewrite M4, M5. set (n := length (b_duals B)) in *. assert (NA : length (b_duals A) = n) by lia. assert (NP : 0 < n). { rewrite B3, Ex. cbn. lia. }
    assert (OO : off_of states A = off_of states B). { unfold off_of. rewrite A1, A2, B1, B2. auto. }
    assert (Q := block_step n (size_of (b_shape B)) (off_of states B) NP OF (tab (b_duals A)) (tab (b_duals B)) (tab (b_duals B')) s). specialize (Q ltac:(intros o; rewrite <- NA; apply A5) ltac:(intros o; apply B5) ltac:(intros i o Hi; apply M6; auto)).
    unfold dpart at 1 3. rewrite OO, NA. fold n. rewrite B2 in *. match goal with |- (?a + ?b <= _)%Qc => set (a0 := a) in *; set (b0 := b) in * end.
    match type of Q with (?a <= ?c - ?e * (?f - ?h) + ?k)%Qc => change a with a0 in Q; set (c0 := c) in *; set (f0 := f) in *; set (h0 := h) in * end.
    match goal with |- (_ <= (?c + ?c') - _ * (_ - _) + _)%Qc => change c with c0; set (c1 := c') in * end. fold n in IH'.
    set (f1 := qsum (dpart states) bs) in *. set (h1 := qsum (dpart states) bb') in *. set (t1 := qsum (fun B0 => Qc_of (length (b_duals B0))) bs1) in *.
    replace (c0 + c1 - (1 + 1) * s * (f0 + f1 - (h0 + h1)) + square s * (Qc_of n + t1))%Qc with ((c0 - (1 + 1) * s * (f0 - h0) + square s * Qc_of n) + (c1 - (1 + 1) * s * (f1 - h1) + square s * t1))%Qc by ring. apply Qcplus_le_compat; auto.
Qed.
Lemma distance_pos : forall bs bs', (0 <= distance2 bs bs')%Qc.
Proof. intros bs bs'. unfold distance2. apply qsum_pos. intros P _. apply qsum_pos. intros i _. apply qsum_pos. intros o _. apply square_pos. Qed.
Lemma tables_moved : forall s states bs bs', Forall2 (moved s states) bs bs' -> tables bs' = tables bs.
Proof. intros s states bs bs' H. unfold tables. induction H as [|B B' bs bs' M _ IH]; auto. destruct M as [_ [_ [M _]]]. rewrite !sumq_qsum in *. rewrite !qsum_cons, IH, M. auto. Qed.

(** ** The bound *)
Lemma bound_step : forall mx p c it st st', iterated gm d mx p c it st st' -> exists b, dd_bound st' = Some b /\ bounds mx (sum_states gm d st (dd_states st')) b /\
  (b = sum_states gm d st (dd_states st') \/ dd_bound st = Some b) /\ forall b0, dd_bound st = Some b0 -> bounds mx b0 b.
Proof.
  intros mx p c it st st' I. assert (EL := it_lower _ _ _ _ _ _ _ _ I). unfold dd_bound. rewrite EL. set (lb := sum_states gm d st (dd_states st')). destruct (feed_value mx (dd_neg_lower st) (- lb)%Qc []) as [[EV ->]|[u [EV [[B ->]|[B ->]]]]]; cbn [acc_value option_map].
  - exists lb. rewrite Qcopp_involutive. split; auto. split; [apply bounds_refl|]. split; auto. rewrite EV. cbn. congruence.
  - exists lb. rewrite Qcopp_involutive. split; auto. split; [apply bounds_refl|]. split; auto. rewrite EV. cbn. intros b0 Q. injection Q as <-. apply bounds_opp in B. rewrite Qcopp_involutive in B. auto.
  - rewrite EV. cbn. exists (- u)%Qc. split; auto. split. { apply bounds_opp in B. rewrite Qcopp_involutive in B. auto. } split; auto. intros b0 Q. injection Q as <-. apply bounds_refl.
Qed.

Section Target.
Variables (mx : bool) (p : dd_params) (c : call) (s : nat -> Qc) (ref : dd) (Dv : Qc).
Hypothesis VS : valid_solver c.
Hypothesis SS : forall it st, c_step c it st = s it.
Hypothesis SP : forall it, (0 <= s it)%Qc.
Hypothesis NS : forall it, c_stop c it = false.
Hypothesis RI : INV gm d ref.
Hypothesis RD : forall states, states_ok gm d ref states -> bounds mx Dv (sum_states gm d ref states).
Definition gap (b : Qc) : Qc := if mx then (b - Dv)%Qc else (Dv - b)%Qc.

Lemma progress : forall it st st', FULL gm d st -> FULL gm d st' -> dd_labels ref = dd_labels st -> iterated gm d mx p c it st st' -> forall b, bounds mx (sum_states gm d st (dd_states st')) b ->
  ((1 + 1) * s it * gap b + distance2 (dd_blocks st') (dd_blocks ref) <= distance2 (dd_blocks st) (dd_blocks ref) + square (s it) * tables (dd_blocks st))%Qc /\ tables (dd_blocks st') = tables (dd_blocks st).
Proof.
  intros it st st' F F' LB I b Hb. assert (ST : states_ok gm d st (dd_states st')). { split; [apply F'|]. intros m Hm. apply (it_labeling _ _ _ _ _ _ _ _ I). auto. }
  assert (SR : states_ok gm d ref (dd_states st')). { destruct ST as [S1 S2]. split; auto. intros m Hm. specialize (S2 m Hm). unfold labeling in *. cbn [sub_model v_labels] in *. rewrite LB. auto. }
  destruct (it_dual _ _ _ _ _ _ _ _ I) as [st0 MV]. rewrite SS in MV. set (sg := if mx then (- s it)%Qc else s it) in *. assert (TE := tables_moved _ _ _ _ MV). split; auto.
  assert (Q := distance_step st (dd_states st') sg (dd_blocks ref) (dd_blocks st') (fl_inv _ _ _ F) ST (iv_blocks _ _ _ RI) MV). rewrite TE in Q. assert (Bd := RD _ SR).
  rewrite (total_parts ref _ RI) in Bd. rewrite (total_parts st _ (fl_inv _ _ _ F)) in Hb. set (v := qsum (vpart (dd_states st')) Entries) in *. set (f := qsum (dpart (dd_states st')) (dd_blocks ref)) in *. set (h := qsum (dpart (dd_states st')) (dd_blocks st)) in *.
  set (R0 := distance2 (dd_blocks st) (dd_blocks ref)) in *. set (R1 := distance2 (dd_blocks st') (dd_blocks ref)) in *. set (t := tables (dd_blocks st)) in *. assert (SQ : square sg = square (s it)) by (unfold sg, square; destruct mx; ring). rewrite SQ in Q. set (q := (square (s it) * t)%Qc) in *.
  assert (X : ((1 + 1) * s it * gap b <= (1 + 1) * sg * (f - h))%Qc).
  { assert (P0 : (0 <= (1 + 1) * s it)%Qc). { replace ((1 + 1) * s it)%Qc with (s it + s it)%Qc by ring. specialize (SP it). qc. }
    replace ((1 + 1) * sg * (f - h))%Qc with ((1 + 1) * s it * (if mx then h - f else f - h))%Qc by (unfold sg; destruct mx; ring). rewrite !(Qcmult_comm ((1 + 1) * s it)). apply Qcmult_le_compat_r; auto. unfold gap. clear - Bd Hb. destruct mx; cbn in *; qc. }
  clear - Q X. qc.
Qed.
Lemma loop_bound : forall n it st st', FULL gm d st -> dd_labels ref = dd_labels st -> infer_loop gm mx p c n it st = Ret (st', false) ->
  (forall b0, dd_bound st = Some b0 -> exists b, dd_bound st' = Some b /\ bounds mx b0 b) /\ (0 < n -> exists b, dd_bound st' = Some b) /\
  forall b, dd_bound st' = Some b -> ((1 + 1) * qsum s (seq it n) * gap b <= distance2 (dd_blocks st) (dd_blocks ref) + tables (dd_blocks st) * qsum (fun i => square (s i)) (seq it n))%Qc.
Proof.
  induction n as [|n IH]; intros it st st' F LB E; cbn [infer_loop] in E.
  - injection E as <-. split. { intros b0 H. exists b0. split; auto. apply bounds_refl. } split; [lia|]. intros b _. cbn [seq]. rewrite !qsum_nil. assert (D0 := distance_pos (dd_blocks st) (dd_blocks ref)). replace ((1 + 1) * 0 * gap b)%Qc with 0%Qc by ring. rewrite Qcmult_0_r, Qcplus_0_r. auto.
  - destruct (iterate_ok gm WF d DC OR NM mx p c it st F VS) as [st1 [E1 [F1 I1]]]. rewrite E1 in E. cbn [bind] in E. rewrite NS in E. destruct (converged p _ _); [discriminate|].
    destruct (it_kept _ _ _ _ _ _ _ _ I1) as [K1 _]. destruct (IH (S it) st1 st' F1 ltac:(congruence) E) as [H1 [H2 H3]]. destruct (bound_step mx p c it st st1 I1) as [b1 [B1 [B2 [_ B3]]]]. destruct (H1 b1 B1) as [b [B4 B5]].
    split. { intros b0 H. exists b. split; auto. apply (bounds_trans _ _ b1); auto. } split; [eauto|]. intros b' Eb. rewrite B4 in Eb. injection Eb as <-. specialize (H3 b B4).
    destruct (progress it st st1 F F1 LB I1 b) as [P1 P2]. { apply (bounds_trans _ _ b1); auto. } rewrite P2 in H3. cbn [seq]. rewrite !qsum_cons. set (q := qsum s (seq (S it) n)) in *. set (w := qsum (fun i => square (s i)) (seq (S it) n)) in *. set (t := tables (dd_blocks st)) in *. set (z := gap b) in *.
    replace ((1 + 1) * (s it + q) * z)%Qc with ((1 + 1) * s it * z + (1 + 1) * q * z)%Qc by ring. replace (t * (square (s it) + w))%Qc with (square (s it) * t + t * w)%Qc by ring.
    set (a1 := ((1 + 1) * s it * z)%Qc) in *. set (a2 := ((1 + 1) * q * z)%Qc) in *. set (a3 := (square (s it) * t)%Qc) in *. set (a4 := (t * w)%Qc) in *. clear - P1 H3. qc.
Qed.
End Target.
End Conv.
