(** LPCplex: calls, arg, value and bound. *)
From Coq Require Import ZArith QArith Qcanon Sorted.
From Verif Require Import Base Values GmView GmViewSpec GmViewProofs ShapeSpec ShapeProofs ConstraintModel DualDecompModel FactorOpsModel LprSpec HoeProofs LprProofs LpcModel LpcSpec LpcProofs LpcPoint.
From Verif Require DecompProofs.
Open Scope nat_scope.

Section U.
Variable g : gmv Qc.
Hypothesis W : wf_gmv g.
Variables (mx integer : bool) (raw : Qc).
Notation nv := (length (v_labels g)).
Notation nf := (length (v_factors g)).
Notation vars := (vars_of g).
Notation val := (fun_of g).
Notation lab := (lab g). Notation off := (off g). Notation foff := (foff g). Notation fsz := (fsz g). Notation fsh := (fsh g). Notation NL := (NL g). Notation NN := (NN g).

Definition rowok (p : list Qc) (r : Qc * Qc * list Qc) : Prop := let '(lo, hi, row) := r in (lo <= dot row p)%Qc /\ (dot row p <= hi)%Qc.
Definition inv (cs : list constr) (s : lpc) : Prop :=
  lc_nodes s = map off (seq 0 nv) /\ fids_ok g (lc_factors s) /\ lc_const s = cst g nf /\
  lp_bools (lc_lp s) = (if integer then NL else 0) /\ lp_obj (lc_lp s) = OBJ g raw /\
  exists rows, lp_rows (lc_lp s) = ROWS g ++ rows /\ Forall2 (fun r c => forall p, rowok p r <-> holds p c) rows cs.
Lemma new_inv : exists s, lpc_new g integer raw = Ret s /\ inv [] s.
Proof.
  destruct (new_ok g W integer raw) as (fs & FO & E). eexists. split; [exact E|]. repeat split; try assumption; try (apply FO). exists []. split; [rewrite app_nil_r; reflexivity|constructor].
Qed.
Lemma add_inv cs s idx coefs lo hi : inv cs s -> legal NN [(idx, coefs, lo, hi)] -> exists s', addConstraint s idx coefs lo hi = Ret s' /\ inv (cs ++ [(idx, coefs, lo, hi)]) s' /\
  lc_started s' = lc_started s /\ lc_sol s' = lc_sol s.
Proof.
  intros (N & F & C & B & O & rows & R & FR) LG. inversion LG as [|? ? LG1 _]; subst. cbv beta iota in LG1. destruct LG1 as (ND & FI & LC). unfold addConstraint. rewrite O, OBJ_length.
  assert (FE : Forall (fun e : nat * Qc => fst e < NN) (combine idx coefs)). { apply Forall_forall. intros [i q] I. apply in_combine_l in I. rewrite Forall_forall in FI. apply FI. exact I. }
  rewrite setCoefs_ok by (rewrite repeat_length; exact FE). cbn [bind]. eexists. split; [reflexivity|]. cbn [lc_started lc_sol]. split; [|split; reflexivity].
  unfold inv. cbn [lc_nodes lc_factors lc_const lc_lp lp_bools lp_obj lp_rows]. split; [exact N|]. split; [exact F|]. split; [exact C|]. split; [exact B|]. split; [reflexivity|]. eexists. split; [rewrite R, <- app_assoc; reflexivity|]. apply Forall2_app; [exact FR|]. constructor; [|constructor].
  intros p. unfold rowok, holds. rewrite dot_row; [reflexivity| |exact FE]. clear -ND LC. revert coefs LC. induction idx as [|i idx IH]; intros [|q coefs] LC; try discriminate; cbn; [constructor|]. inversion ND as [|? ? NI ND']; subst. constructor; [|apply IH; [exact ND'|cbn in LC; lia]].
  intros J. apply NI. apply in_map_iff in J. destruct J as ([a b] & <- & J). apply in_combine_l in J. exact J.
Qed.
Lemma infer_inv cs s solve : inv cs s -> inv cs (snd (infer solve s)).
Proof. intros I. unfold infer. destruct (solve (lc_lp s)); exact I. Qed.
Lemma run_inv h : legal NN (added h) -> exists s, lpc_run g integer raw h = Ret s /\ inv (added h) s.
Proof.
  intros LG. unfold lpc_run. destruct new_inv as (s0 & E & I0). rewrite E. cbn [bind]. clear E.
  assert (G : forall h cs s0, legal NN (added h) -> inv cs s0 -> exists s, foldM lpc_step h s0 = Ret s /\ inv (cs ++ added h) s); [|apply (G h [] s0 LG I0)].
  clear. induction h as [|o h IH]; intros cs s0 LG I0; [exists s0; split; [reflexivity|rewrite app_nil_r; exact I0]|]. cbn [foldM]. destruct o as [idx coefs lo hi|solve].
  - unfold added in *. cbn [flat_map app] in *. inversion LG as [|? ? L1 L2]; subst. destruct (add_inv cs s0 idx coefs lo hi I0) as (s1 & E1 & I1 & _); [constructor; [exact L1|constructor]|]. cbn [lpc_step]. rewrite E1. cbn [bind].
    destruct (IH _ s1 L2 I1) as (s & R & I). exists s. split; [exact R|]. rewrite <- app_assoc in I. exact I.
  - cbn [lpc_step bind]. apply (IH cs); [exact LG|apply infer_inv; exact I0].
Qed.

Section State.
Variables (cs : list constr) (s : lpc).
Hypothesis I : inv cs s.
Lemma nodes_rd v : v < nv -> rd (lc_nodes s) v = Ret (off v).
Proof. intros H. destruct I as (N & _). rewrite N, (rd_nth _ _ v (off 0)) by (rewrite map_length, seq_length; exact H). rewrite (map_nth off), seq_nth by exact H. reflexivity. Qed.
Lemma nodeVi v l : v < nv -> lpNodeVi s v l = Ret (off v + l).
Proof. intros H. unfold lpNodeVi. rewrite nodes_rd by exact H. reflexivity. Qed.
Lemma obj_len : length (lp_obj (lc_lp s)) = NN. Proof. destruct I as (_ & _ & _ & _ & O & _). rewrite O. apply OBJ_length. Qed.
Lemma strides_ok : forall vis c c0 k0 pre, length c = length vis -> length pre = length c0 ->
  Forall (fun v => v < nv) vis ->
  foldM (fun (p : nat * nat) vi => l <- rd (c0 ++ c) vi ;; v <- rd (pre ++ vis) vi ;; k <- rd (v_labels g) v ;; Ret (fst p + snd p * l, snd p * k)) (seq (length c0) (length vis)) k0
  = Ret (fst k0 + snd k0 * index_of (at_vars (v_labels g) vis) c, snd k0 * size_of (at_vars (v_labels g) vis)).
Proof.
  induction vis as [|v vis IH]; intros [|l c] c0 [a b] pre L LP F; try discriminate; [cbn; rewrite Nat.mul_0_r, Nat.add_0_r, Nat.mul_1_r; reflexivity|]. apply Forall_cons_iff in F. destruct F as [Hv F]. cbn [length seq foldM].
  rewrite (rd_nth _ _ (length c0) 0) by (rewrite app_length; cbn; lia). rewrite app_nth2, Nat.sub_diag by lia. cbn [nth bind]. rewrite (rd_nth _ (pre ++ v :: vis) (length c0) 0) by (rewrite app_length; cbn; lia). rewrite app_nth2 by lia. rewrite LP, Nat.sub_diag. cbn [nth bind].
  rewrite (rd_nth _ _ v 0 Hv). cbn [bind fst snd].
  specialize (IH c (c0 ++ [l]) (a + b * l, b * nth v (v_labels g) 0) (pre ++ [v])). rewrite <- !app_assoc in IH. cbn [app] in IH. assert (LE : length (c0 ++ [l]) = S (length c0)) by (rewrite app_length; cbn; lia). rewrite LE in IH. rewrite IH; [|cbn in L; lia|rewrite app_length; cbn; lia|exact F].
  cbn [at_vars map index_of size_of fold_right fst snd]. fold (at_vars (v_labels g) vis). fold (size_of (at_vars (v_labels g) vis)). f_equal. f_equal; nia.
Qed.
Lemma factorVi f c : f < nf -> vars f <> [] -> length c = length (vars f) -> lpFactorVi g s f c = Ret (fid g f + index_of (fsh f) c).
Proof.
  intros H NE L. unfold lpFactorVi. rewrite (rd_factor g f H). cbn [bind fst]. destruct (vars_ok g W f) as [_ F]. unfold LpcProofs.fsh. destruct (vars f) as [|v vis] eqn:V; [contradiction|]. destruct c as [|l c]; [discriminate|]. change (rd (l :: c) 0) with (Ret l). change (rd (v :: vis) 0) with (Ret v). cbn [bind].
  apply Forall_cons_iff in F. destruct F as [Hv F]. rewrite (rd_nth _ _ v 0 Hv). cbn [bind]. cbn [length]. rewrite Nat.sub_succ, Nat.sub_0_r.
  pose proof (strides_ok vis c [l] (l, nth v (v_labels g) 0) [v]) as SO. cbn [app length] in SO. rewrite SO; [|cbn in L; lia|reflexivity|exact F]. cbn [bind fst snd].
  destruct I as (_ & (FL & FN) & _). rewrite (rd_nth _ _ f 0) by (rewrite FL; exact H). cbn [bind]. rewrite (FN f H). reflexivity.
Qed.
Lemma nth_err (p : list Qc) i q : i < length p -> (nth_error p i = Some q <-> nth i p 0%Qc = q).
Proof.
  intros H. split; [intros E; apply nth_error_nth; exact E|]. intros <-. destruct (nth_error p i) as [a|] eqn:E; [rewrite (nth_error_nth _ _ _ E); reflexivity|apply nth_error_None in E; lia].
Qed.
Lemma index_eqb f x c : labeling g x -> in_shape (fsh f) c -> (index_of (fsh f) c =? index_of (fsh f) (cx g x f)) = if list_eq_dec Nat.eq_dec c (cx g x f) then true else false.
Proof.
  intros LX S. destruct (list_eq_dec Nat.eq_dec c (cx g x f)) as [->|N]; [apply Nat.eqb_refl|]. apply Nat.eqb_neq. intros E. apply N. rewrite <- (coord_of_index _ _ S), E. apply coord_of_index. apply cx_shape; assumption.
Qed.
Lemma vars_fc f fc : nth_error (v_factors g) f = Some fc -> vars f = fst fc.
Proof. intros E. unfold vars_of. rewrite E. reflexivity. Qed.
Lemma point_iff p x : labeling g x -> length p = NN -> (point_entries g p x <-> point_of g s x p).
Proof.
  intros LX LP. split.
  - intros [PN PF]. split; [rewrite obj_len; exact LP|]. split.
    + intros v l Hv Hl. exists (off v + l). split; [apply nodeVi; exact Hv|]. pose proof (off_lt g v l Hv Hl). pose proof (NL_NN g). apply nth_err; [lia|]. apply PN; assumption.
    + intros f fc c E NE S. pose proof (vars_fc f fc E) as V. rewrite <- V in *. assert (Hf : f < nf) by (apply nth_error_Some; congruence). change (at_vars (v_labels g) (vars f)) with (fsh f) in S. change (at_vars x (vars f)) with (cx g x f).
      exists (fid g f + index_of (fsh f) c). split; [apply factorVi; [exact Hf|exact NE|]; rewrite (in_shape_length _ _ S); apply fsh_length|].
      destruct (le_lt_dec 2 (length (vars f))) as [A|A].
      * rewrite fid_foff by exact A. assert (K : index_of (fsh f) c < fsz f) by (rewrite fsz_2 by exact A; apply index_of_lt; exact S). apply nth_err; [rewrite LP; apply foff_lt; assumption|]. rewrite PF by assumption. rewrite index_eqb by assumption. destruct (list_eq_dec Nat.eq_dec c (cx g x f)); reflexivity.
      * unfold fid, cx. destruct (vars f) as [|v [|]] eqn:V2; [contradiction| |cbn in A; lia]. unfold LpcProofs.fsh in *. rewrite V2 in *. inversion S as [|l k c' ? Hl S']; subst. inversion S'; subst. cbn [index_of at_vars map]. rewrite Nat.mul_0_r, Nat.add_0_r.
        assert (Hv : v < nv). { pose proof (var_in g W f 0) as Q. rewrite V2 in Q. cbn in Q. apply Q. lia. }
        pose proof (off_lt g v l Hv Hl). pose proof (NL_NN g). apply nth_err; [lia|]. rewrite (PN v l Hv Hl). destruct (list_eq_dec Nat.eq_dec [l] [nth v x 0]) as [Q|Q]; [injection Q as ->; rewrite Nat.eqb_refl; reflexivity|]. destruct (Nat.eqb_spec l (nth v x 0)) as [->|]; [contradiction|reflexivity].
  - intros (_ & PN & PF). split.
    + intros v i Hv Hi. destruct (PN v i Hv Hi) as (j & E & Q). rewrite nodeVi in E by exact Hv. injection E as <-. apply nth_err; [|exact Q]. apply nth_error_Some. congruence.
    + intros f k Hf K. pose proof (fsz_0 g f k K) as A. rewrite fsz_2 in K by exact A. destruct (nth_error (v_factors g) f) as [fc|] eqn:E; [|apply nth_error_None in E; lia]. pose proof (vars_fc f fc E) as V.
      pose proof (coord_of_in_shape (fsh f) k (fsh_pos g W f)) as S. destruct (PF f fc (coord_of (fsh f) k) E) as (j & EJ & Q); [rewrite <- V; destruct (vars f); cbn in A; [lia|discriminate]|rewrite <- V; exact S|].
      rewrite factorVi in EJ; [|exact Hf|destruct (vars f); cbn in A; [lia|discriminate]|rewrite coord_of_length; apply fsh_length]. injection EJ as <-. rewrite index_of_coord in Q by (try apply fsh_pos; assumption). rewrite fid_foff in Q by exact A. rewrite <- V in Q. change (at_vars x (vars f)) with (cx g x f) in Q.
      assert (J : foff f + k < length p) by (apply nth_error_Some; congruence). apply (nth_err _ _ _ J) in Q. rewrite Q. rewrite <- (index_of_coord (fsh f) k (fsh_pos g W f) K) at 2. rewrite index_eqb by assumption. destruct (list_eq_dec _ _ _); reflexivity.
Qed.
Lemma rows_holds p : forall rows, Forall2 (fun r c => forall p, rowok p r <-> holds p c) rows cs -> (Forall (rowok p) rows <-> Forall (holds p) cs).
Proof. clear I. intros rows F. induction F as [|r c rows cs' H F IH]; [split; constructor|]. rewrite !Forall_cons_iff, IH, (H p). reflexivity. Qed.
Lemma feasible_iff p : feasible (lc_lp s) p <->
  length p = NN /\ (forall i, i < NN -> (0 <= nth i p 0)%Qc /\ (nth i p 0 <= 1)%Qc) /\ (integer = true -> forall i, i < NL -> nth i p 0%Qc = 0%Qc \/ nth i p 0%Qc = 1%Qc) /\ local_ok g p /\ Forall (holds p) cs.
Proof.
  unfold feasible. rewrite obj_len. destruct I as (_ & _ & _ & B & _ & rows & R & FR). rewrite B, R, Forall_app. change (Forall _ rows) with (Forall (rowok p) rows). rewrite (rows_holds p rows FR). rewrite (rows_ok g W p).
  split; intros (A1 & A2 & A3 & A4 & A5); (split; [exact A1|]).
  - rewrite A1 in A2. split; [exact A2|]. split; [intros ->; exact A3|]. split; assumption.
  - rewrite A1. split; [exact A2|]. split; [|split; assumption]. destruct integer; [apply A3; reflexivity|intros i Hi; lia].
Qed.
Lemma energy p x : labeling g x -> point_entries g p x -> (dot (lp_obj (lc_lp s)) p + lc_const s)%Qc = total AdderQ g x.
Proof. intros LX P. destruct I as (_ & _ & C & _ & O & _). rewrite C, O. apply point_energy; assumption. Qed.
Lemma box p : (forall i, i < NN -> nth i p 0%Qc = 0%Qc \/ nth i p 0%Qc = 1%Qc) -> forall i, i < NN -> (0 <= nth i p 0)%Qc /\ (nth i p 0 <= 1)%Qc.
Proof. intros B i H. destruct (B i H) as [->| ->]; split; discriminate. Qed.
(** The entries of the point of a labeling are zeros and ones. *)
Lemma entries_bool p x : length p = NN -> point_entries g p x -> forall i, i < NN -> nth i p 0%Qc = 0%Qc \/ nth i p 0%Qc = 1%Qc.
Proof.
  intros LP [PN PF] i H. assert (J : In i (map fst (nwrites g ++ fwrites g))) by (rewrite keys_ok; apply in_seq; lia). rewrite map_app in J. apply in_app_or in J. unfold nwrites, fwrites in J.
  destruct J as [J|J]; apply in_map_iff in J; destruct J as ([j q] & <- & J); apply in_flat_map in J; destruct J as (a & A & J); apply in_seq in A; apply in_map_iff in J; destruct J as (b & E & J); apply in_seq in J; injection E as <- _; cbn [fst].
  - rewrite PN by lia. destruct (_ =? _); auto.
  - rewrite PF by lia. destruct (_ =? _); auto.
Qed.
Lemma point_feasible p x : labeling g x -> length p = NN -> point_entries g p x -> (feasible (lc_lp s) p <-> Forall (holds p) cs).
Proof.
  intros LX LP P. rewrite feasible_iff. split; [intros (_ & _ & _ & _ & H); exact H|]. intros H. pose proof (entries_bool p x LP P) as B. split; [exact LP|]. split; [apply box; exact B|]. split; [intros _ i Hi; apply B; pose proof (NL_NN g); lia|]. split; [apply (point_local g W p x LX P)|exact H].
Qed.

(** arg *)
Lemma argmax_lt (b : nat) : forall l (st : Qc * nat) r k, (forall i, In i l -> i < k) -> snd st < k ->
  foldM (fun (p : Qc * nat) i => q <- rd (lc_sol s) (b + i) ;; Ret (if Qc_lt (fst p) q then (q, i) else p)) l st = Ret r -> snd r < k.
Proof.
  induction l as [|i l IH]; intros st r k HL H E; cbn [foldM] in E; [injection E as <-; exact H|]. destruct (rd (lc_sol s) (b + i)) as [q| | |]; try discriminate. cbn [bind] in E. eapply IH; [|  |exact E]; [intros j J; apply HL; right; exact J|]. destruct (Qc_lt (fst st) q); [apply HL; left; reflexivity|exact H].
Qed.
Lemma argmax_run (b : nat) : forall l st, (forall i, In i l -> b + i < length (lc_sol s)) ->
  foldM (fun (p : Qc * nat) i => q <- rd (lc_sol s) (b + i) ;; Ret (if Qc_lt (fst p) q then (q, i) else p)) l st
  = Ret (fold_left (fun (p : Qc * nat) i => if Qc_lt (fst p) (nth (b + i) (lc_sol s) 0%Qc) then (nth (b + i) (lc_sol s) 0%Qc, i) else p) l st).
Proof. induction l as [|i l IH]; intros st H; auto. cbn [foldM fold_left]. rewrite (rd_nth _ _ _ 0%Qc) by (apply H; left; reflexivity). cbn [bind]. apply IH. intros j J. apply H. right. exact J. Qed.
Lemma arg_node_ok v : v < nv -> length (lc_sol s) = NN -> exists l, arg_node g s v = Ret l /\ l < lab v /\
  forall y, y < lab v -> (forall i, i < lab v -> nth (off v + i) (lc_sol s) 0%Qc = if i =? y then 1%Qc else 0%Qc) -> l = y.
Proof.
  intros Hv L. unfold arg_node. rewrite nodes_rd by exact Hv. cbn [bind]. pose proof (lab_pos g W v Hv) as K. pose proof (NL_NN g) as NLN. assert (OL : forall i, i < lab v -> off v + i < length (lc_sol s)) by (intros i Hi; pose proof (off_lt g v i Hv Hi); lia).
  rewrite (rd_nth _ _ (off v) 0%Qc) by (specialize (OL 0 K); lia). cbn [bind]. rewrite (rd_nth _ _ v 0 Hv). cbn [bind]. fold (lab v).
  rewrite argmax_run by (intros i J; apply in_seq in J; apply OL; lia). cbn [bind].
  assert (G : forall m, m < lab v -> exists q l, fold_left (fun (p : Qc * nat) i => if Qc_lt (fst p) (nth (off v + i) (lc_sol s) 0%Qc) then (nth (off v + i) (lc_sol s) 0%Qc, i) else p) (seq 1 m) (nth (off v) (lc_sol s) 0%Qc, 0) = (q, l) /\ l <= m /\ q = nth (off v + l) (lc_sol s) 0%Qc /\
     forall y, y < lab v -> (forall i, i < lab v -> nth (off v + i) (lc_sol s) 0%Qc = if i =? y then 1%Qc else 0%Qc) -> y <= m -> l = y).
  { induction m as [|m IH]; intros Hm.
    - exists (nth (off v) (lc_sol s) 0%Qc), 0. split; [reflexivity|]. split; [lia|]. split; [rewrite Nat.add_0_r; reflexivity|]. intros y _ _ Hy. lia.
    - destruct IH as (q & l & E & Ll & Q & H); [lia|]. rewrite seq_S, fold_left_app, E. cbn [fold_left fst plus]. set (a := nth (off v + S m) (lc_sol s) 0%Qc). destruct (Qc_lt q a) eqn:C.
      + exists a, (S m). split; [reflexivity|]. split; [lia|]. split; [reflexivity|]. intros y Hy Y Ym. destruct (Nat.eq_dec y (S m)) as [->|N]; [reflexivity|]. exfalso. unfold a in C. rewrite (Y (S m)) in C by lia. destruct (Nat.eqb_spec (S m) y); [lia|]. rewrite Q, (Y l) in C by lia. destruct (l =? y); discriminate C.
      + exists q, l. split; [reflexivity|]. split; [lia|]. split; [exact Q|]. intros y Hy Y Ym. destruct (Nat.eq_dec y (S m)) as [->|N]; [|apply (H y Hy Y); lia]. exfalso. unfold a in C. rewrite (Y (S m)), Nat.eqb_refl in C by lia. rewrite Q, (Y l) in C by lia. destruct (Nat.eqb_spec l (S m)); [lia|]. discriminate C. }
  destruct (G (lab v - 1)) as (q & l & E & Ll & _ & H); [lia|]. rewrite E. cbn [bind]. exists l. split; [reflexivity|]. split; [lia|]. intros y Hy Y. apply (H y Hy Y). lia.
Qed.
Lemma arg_ok : lc_started s = true -> length (lc_sol s) = NN -> exists x, arg g s = Ret (true, x) /\ labeling g x /\ forall y, labeling g y -> point_entries g (lc_sol s) y -> x = y.
Proof.
  intros ST L. unfold arg. rewrite ST. destruct (choose nv (fun v l => arg_node g s v = Ret l /\ l < lab v /\
  forall y, y < lab v -> (forall i, i < lab v -> nth (off v + i) (lc_sol s) 0%Qc = if i =? y then 1%Qc else 0%Qc) -> l = y)) as (x & LX & X); [intros v Hv; apply arg_node_ok; assumption|].
  exists x. split.
  - rewrite (DecompProofs.mapM_ok _ _ _ (fun v => nth v x 0)) by (intros v J; apply in_seq in J; apply X; lia). cbn [bind]. f_equal. f_equal. apply (nth_ext _ _ 0 0); [rewrite map_length, seq_length; symmetry; exact LX|]. intros v Hv. rewrite map_length, seq_length in Hv.
    rewrite (nth_indep _ 0 (nth 0 x 0)) by (rewrite map_length, seq_length; exact Hv). rewrite (map_nth (fun v => nth v x 0)), seq_nth by exact Hv. reflexivity.
  - split; [apply in_shape_of; [exact LX|intros v Hv; apply X; exact Hv]|]. intros y LY [PN _]. apply (nth_ext _ _ 0 0); [rewrite LX; symmetry; apply (in_shape_length _ _ LY)|]. intros v Hv. rewrite LX in Hv. destruct (X v Hv) as (_ & _ & H). apply H; [apply labeling_lt; assumption|]. intros i Hi. apply PN; assumption.
Qed.
Lemma value_ok x : arg g s = Ret (true, x) -> labeling g x -> value g s = Ret (total AdderQ g x).
Proof. intros E LX. unfold value. rewrite E. cbn [bind]. apply v_evaluate_total; [exact W|apply (in_shape_length _ _ LX)]. Qed.
End State.
End U.
