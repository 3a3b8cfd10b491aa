(** Proofs about dual decomposition: the dual step. *)
From Coq Require Import ZArith QArith Qcanon Sorted.
From Verif Require Import Base Values GmView GmViewSpec GmViewProofs ShapeSpec ShapeProofs UtilModel ConstraintModel ConstraintSpec ConstraintProofs ConstraintCounts MpModel DecompModel DecompSpec DecompProofs DecompReorder DecompBuild DualDecompModel DualDecompSpec DualDecompProofs DualDecompInv.
Open Scope nat_scope.

Definition tab (D : list (list Qc)) (j o : nat) : Qc := nth o (nth j D []) 0%Qc.
Definition rect (n size : nat) (D : list (list Qc)) : Prop := length D = n /\ forall i, i < n -> length (nth i D []) = size.

Lemma add_at_ok : forall n size D i o x, rect n size D -> i < n -> o < size -> exists D', add_at D i o x = Ret D' /\ rect n size D' /\
  forall j o', tab D' j o' = (tab D j o' + if (i =? j) && (o =? o') then x else 0)%Qc.
Proof.
  intros n size D i o x [R1 R2] Hi Ho. unfold add_at, rd2, wr2. rewrite (rd_nth _ D i []) by lia. cbn [bind]. rewrite (rd_nth _ (nth i D []) o 0%Qc) by (rewrite R2; auto). cbn [bind].
  rewrite wr_Ret by (rewrite R2; auto). cbn [bind]. rewrite wr_Ret by lia. eexists. split; [reflexivity|]. split.
  - split. { rewrite length_upd. auto. } intros j Hj. rewrite nth_upd by lia. destruct (Nat.eq_dec i j) as [<-|]; auto. rewrite length_upd. auto.
  - intros j o'. unfold tab. rewrite nth_upd by lia. destruct (Nat.eq_dec i j) as [<-|NE].
    + rewrite Nat.eqb_refl. rewrite nth_upd by (rewrite R2; auto). destruct (Nat.eq_dec o o') as [<-|]. { rewrite Nat.eqb_refl. auto. } destruct (Nat.eqb_spec o o'); [tauto|]. cbn [andb]. ring.
    + destruct (Nat.eqb_spec i j); [tauto|]. cbn [andb]. ring.
Qed.

Lemma spread_ok : forall n size D o x k, rect n size D -> o < size -> k <= n -> exists D', foldM (fun D j => add_at D j o x) (seq 0 k) D = Ret D' /\ rect n size D' /\
  forall j o', tab D' j o' = (tab D j o' + if (j <? k) && (o =? o') then x else 0)%Qc.
Proof.
  intros n size D o x k RD Ho. induction k as [|k IH]; intros Hk. { exists D. split; auto. split; auto. intros j o'. cbn [Nat.ltb Nat.leb andb]. ring. }
  destruct IH as [D1 [E1 [R1 T1]]]; [lia|]. rewrite seq_S, foldM_app, E1. cbn [plus foldM bind]. destruct (add_at_ok n size D1 k o x R1) as [D2 [E2 [R2 T2]]]; auto. rewrite E2. cbn [bind].
  exists D2. split; auto. split; auto. intros j o'. rewrite T2, T1. destruct (Nat.ltb_spec j (S k)); destruct (Nat.ltb_spec j k); destruct (Nat.eqb_spec k j); destruct (Nat.eqb_spec o o'); cbn [andb]; try lia; ring.
Qed.

Definition hit (off : nat -> nat) (o i : nat) : Qc := if off i =? o then 1%Qc else 0%Qc.
(** how many of the first [k] subfactors choose entry [o] *)
Definition hits (off : nat -> nat) (k o : nat) : Qc := qsum (hit off o) (seq 0 k).

Section Block.
Variables (step : Qc) (states : list (list nat)) (B : block) (n size len : nat) (off : nat -> nat).
Hypothesis HN : length (b_duals B) = n /\ length (b_subs B) = n /\ 0 < n.
Hypothesis HO : forall i, i < n -> off i < size /\ exists s, partial_subgradient states (nth i (b_subs B) nosub) len = Ret s /\ index_of (b_shape B) s = off i.

Lemma moves_ok : forall k, k <= n -> forall D, rect n size D -> exists D', foldM (dual_move step states B len) (seq 0 k) D = Ret D' /\ rect n size D' /\
  forall j o, j < n -> tab D' j o = (tab D j o + step * ((if j <? k then hit off o j else 0) - 1 / Qc_of n * hits off k o))%Qc.
Proof.
  destruct HN as [N1 [N2 N3]]. assert (NZ := Qc_of_nz n N3). induction k as [|k IH]; intros Hk D RD. { exists D. split; auto. split; auto. intros j o Hj. cbn [Nat.ltb Nat.leb]. unfold hits. cbn [seq]. rewrite qsum_nil. field. auto. }
  destruct (IH ltac:(lia) D RD) as [D1 [E1 [R1 T1]]]. rewrite seq_S, foldM_app, E1. cbn [plus foldM bind]. destruct (HO k ltac:(lia)) as [O1 [s [O2 O3]]].
  unfold dual_move at 1. rewrite (rd_nth _ (b_subs B) k nosub) by lia. cbn [bind]. rewrite O2. cbn [bind]. cbv zeta. rewrite O3, N1.
  destruct (add_at_ok n size D1 k (off k) step R1 ltac:(lia) O1) as [D2 [E2 [R2 T2]]]. rewrite E2. cbn [bind].
  destruct (spread_ok n size D2 (off k) (- (step / Qc_of n))%Qc n R2 O1 (le_n n)) as [D3 [E3 [R3 T3]]]. rewrite E3. cbn [bind]. exists D3. split; auto. split; auto.
  intros j o Hj. rewrite T3, T2, T1 by auto. unfold hits. rewrite seq_S, qsum_app. cbn [plus]. rewrite qsum_cons, qsum_nil. change (hit off o k) with (if off k =? o then 1%Qc else 0%Qc). fold (hits off k o). destruct (Nat.ltb_spec j n); [|lia].
  destruct (Nat.eqb_spec k j) as [<-|NE].
  - destruct (Nat.ltb_spec k (S k)); [|lia]. destruct (Nat.ltb_spec k k); [lia|]. unfold hit. destruct (off k =? o); cbn [andb]; field; auto.
  - destruct (Nat.ltb_spec j (S k)); destruct (Nat.ltb_spec j k); try lia; destruct (off k =? o); cbn [andb]; field; auto.
Qed.
End Block.

Section Step.
Variable gm : gmv Qc.
Hypothesis WF : wf_gmv gm.
Notation nv := (length (v_labels gm)).
Notation fs := (map fst (v_factors gm)).
Variable d : dec.
Hypothesis DC : decomposes nv fs d.
Hypothesis OR : ordered d.
Notation groups := (groups gm d).

(** labelings of all submodels *)
Definition states_ok (st : dd) (states : list (list nat)) : Prop := length states = d_nm d /\ forall m, m < d_nm d -> labeling (sub_model gm st m) (nth m states []).
Lemma states_label : forall st states v m k, INV gm d st -> states_ok st states -> copy_of d v m k -> rd2 states m k = Ret (nth k (nth m states []) 0) /\ nth k (nth m states []) 0 < lab gm v.
Proof.
  intros st states v m k I [S1 S2] C. destruct (dc_range _ _ _ DC _ _ _ C) as [_ [Hm Hk]]. specialize (S2 m Hm). destruct (sub_labels gm d st m I Hm) as [L1 L2]. apply in_shape_nth in S2. destruct S2 as [S2 S3]. rewrite L1 in *. split.
  - unfold rd2. rewrite (rd_nth _ states m []) by lia. cbn [bind]. apply rd_nth. lia.
  - rewrite <- (L2 v k C). auto.
Qed.

Lemma gradient_ok : forall st states g s, INV gm d st -> states_ok st states -> In g groups -> In s (g_subs g) ->
  partial_subgradient states s (length (g_vars g)) = Ret (at_vars (nth (s_model s) states []) (s_idx s)) /\ in_shape (map (lab gm) (g_vars g)) (at_vars (nth (s_model s) states []) (s_idx s)).
Proof.
  intros st states g s I ST Ig Is. destruct (group_ok gm d DC g s Ig Is) as [Hm C]. unfold partial_subgradient.
  assert (X : forall vs idx pre, copies_of d vs (s_model s) idx -> s_idx s = pre ++ idx -> mapM (fun j => k <- rd (s_idx s) j ;; rd2 states (s_model s) k) (seq (length pre) (length vs)) = Ret (at_vars (nth (s_model s) states []) idx)).
  { intros vs idx pre C'. revert pre. induction C' as [|v k vs idx H C' IH]; intros pre E; cbn [length seq mapM at_vars map]; auto. rewrite (rd_Ret _ (s_idx s) _ k). 2: { rewrite E, nth_error_app2, Nat.sub_diag by lia. auto. }
    cbn [bind]. destruct (states_label st states v (s_model s) k I ST H) as [E1 _]. rewrite E1. cbn [bind]. specialize (IH (pre ++ [k])). rewrite app_length, Nat.add_1_r in IH. rewrite IH. 2: { rewrite E, <- app_assoc. auto. } auto. }
  split. { apply (X (g_vars g) (s_idx s) []); auto. }
  unfold at_vars. clear X. induction C as [|v k vs idx H C IH]; constructor; auto. apply (states_label st states v (s_model s) k I ST H).
Qed.

(** the offset that subfactor [i] of a block chooses *)
Definition off_of (states : list (list nat)) (B : block) (i : nat) : nat :=
  let s := nth i (b_subs B) nosub in index_of (b_shape B) (at_vars (nth (s_model s) states []) (s_idx s)).
Definition moved (step : Qc) (states : list (list nat)) (B B' : block) : Prop :=
  b_subs B' = b_subs B /\ b_shape B' = b_shape B /\ length (b_duals B') = length (b_duals B) /\
  forall j o, j < length (b_duals B) -> tab (b_duals B') j o = (tab (b_duals B) j o + step * (hit (off_of states B) o j - 1 / Qc_of (length (b_duals B)) * hits (off_of states B) (length (b_duals B)) o))%Qc.

Lemma specs_in : forall s, In s (specs gm groups) -> exists g, In g groups /\ g_has g = true /\ s = (g_subs g, map (lab gm) (g_vars g)).
Proof. intros s I. unfold specs in I. apply in_flat_map in I. destruct I as [g [I J]]. unfold spec_of in J. destruct (g_has g) eqn:E; [|destruct J]. destruct J as [<-|[]]. eauto. Qed.

Lemma rect_block : forall s B, good_block s B -> rect (length (fst s)) (size_of (snd s)) (b_duals B).
Proof. intros s B [_ [_ [G3 [G4 _]]]]. split; auto. intros i Hi. rewrite Forall_forall in G4. apply G4. apply nth_In. lia. Qed.

Lemma dual_block_ok : forall st states step s B, INV gm d st -> states_ok st states -> In s (specs gm groups) -> good_block s B ->
  exists B', dual_step_block step states B = Ret B' /\ good_block s B' /\ moved step states B B'.
Proof.
  intros st states step s B I ST Is G. destruct (specs_in s Is) as [g [Ig [Hg ->]]]. destruct (has_nonempty g Hg) as [H1 _]. assert (RB := rect_block _ _ G). destruct G as [G1 [G2 [G3 [G4 G5]]]]. cbn [fst snd] in *.
  unfold dual_step_block. rewrite (rd_nth _ (b_subs B) 0 nosub) by (rewrite G1; lia). cbn [bind].
  assert (LEN : length (s_idx (nth 0 (b_subs B) nosub)) = length (g_vars g)). { rewrite G1. destruct (group_ok gm d DC g (nth 0 (g_subs g) nosub) Ig) as [_ C]. { apply nth_In. lia. } clear - C. induction C; cbn; auto. }
  rewrite LEN. set (n := length (g_subs g)) in *. rewrite G3.
  destruct (moves_ok step states B n (size_of (map (lab gm) (g_vars g))) (length (g_vars g)) (off_of states B)) with (k := n) (D := b_duals B) as [D' [E [R' T']]]; auto.
  - split; auto. split; [rewrite G1; auto|lia].
  - intros i Hi. destruct (gradient_ok st states g (nth i (g_subs g) nosub) I ST Ig) as [P1 P2]. { apply nth_In. auto. } unfold off_of. rewrite G1, G2. split. { apply index_of_lt. auto. } eexists. split; [exact P1|]. auto.
  - rewrite E. cbn [bind]. eexists. split; [reflexivity|]. assert (MV : moved step states B (mkBlock (b_subs B) (b_shape B) D')).
    { split; auto. split; auto. cbn [b_duals]. split. { destruct R'. lia. } intros j o Hj. rewrite G3 in *. rewrite T' by auto. destruct (Nat.ltb_spec j n); [auto|lia]. }
    split; auto. unfold good_block. cbn [b_subs b_shape b_duals fst snd]. split; auto. split; auto. destruct R' as [R1 R2]. split; auto. split.
    + apply Forall_forall. intros t J. apply (In_nth _ _ []) in J. destruct J as [i [Hi <-]]. apply R2. lia.
    + intros o. rewrite R1. destruct MV as [_ [_ [_ MV]]]. cbn [b_duals] in MV. rewrite G3 in MV. rewrite (qsum_ext _ _ (fun i => tab (b_duals B) i o + step * (hit (off_of states B) o i - 1 / Qc_of n * hits (off_of states B) n o))%Qc).
      2: { intros i J. apply in_seq in J. apply MV. lia. }
      rewrite qsum_plus, qsum_scale. unfold Qcminus. rewrite qsum_plus, qsum_const, seq_length. fold (hits (off_of states B) n o). specialize (G5 o). rewrite G3 in G5. fold n in G5. unfold tab. rewrite G5.
      assert (NZ : Qc_of n <> 0%Qc) by (apply Qc_of_nz; lia). field. auto.
Qed.

Lemma dual_step_ok : forall st states step, INV gm d st -> states_ok st states -> exists bs, mapM (dual_step_block step states) (dd_blocks st) = Ret bs /\ good_blocks gm d bs /\ Forall2 (moved step states) (dd_blocks st) bs.
Proof.
  intros st states step I ST. assert (G := iv_blocks _ _ _ I). unfold good_blocks in *. assert (H : forall s, In s (specs gm groups) -> In s (specs gm groups)) by auto. revert H G. generalize (dd_blocks st). generalize (specs gm groups) at 1 3 4.
  intros l bs H G. induction G as [|s B l bs G1 G2 IH]; cbn [mapM]. { exists []. split; auto. }
  destruct (dual_block_ok st states step s B I ST) as [B' [E [G' M]]]; auto. { apply H. left. auto. } rewrite E. cbn [bind]. destruct IH as [bs' [E2 [G3 M3]]]. { intros; apply H; right; auto. } rewrite E2. cbn [bind]. exists (B' :: bs'). split; auto.
Qed.
End Step.
