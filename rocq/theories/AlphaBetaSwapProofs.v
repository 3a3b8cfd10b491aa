From Verif Require Import Base Values GmView GmViewSpec ShapeSpec ShapeProofs GmViewProofs GraphCutModel GraphCutSpec GraphCutProofs GraphCutProps AlphaBetaSwapModel AlphaBetaSwapSpec.
Local Open Scope Z_scope.

Lemma alag_refl : forall maxi a, at_least_as_good maxi a a.
Proof. intros []; cbn; lia. Qed.
Lemma alag_trans : forall maxi a b c, at_least_as_good maxi a b -> at_least_as_good maxi b c -> at_least_as_good maxi a c.
Proof. intros []; cbn; lia. Qed.
Lemma bopZ_false : forall maxi a b, bopZ maxi a b = false -> at_least_as_good maxi a b -> a = b.
Proof. intros [] a b; cbn; intros H; apply Z.ltb_ge in H; lia. Qed.
Lemma same_labeling : forall k (g : gmv Z) x, same_labels k g -> labeling g x <-> length x = length (v_labels g) /\ Forall (fun l => (l < k)%nat) x.
Proof.
  intros k g x H. unfold labeling, in_shape, same_labels in *. split.
  - intros F. split; [induction F; cbn; auto; inversion H; subst; auto|]. revert H. induction F as [|l j x r Hl F IH]; intros H; constructor; inversion H; subst; auto.
  - intros [L F]. revert L. revert x F. induction H as [|j r Hj H IH]; intros [|l x] F L; try discriminate; constructor; inversion F; subst; auto.
Qed.
Lemma nested_fold : forall (A B S : Type) (h : A -> outcome (list B)) (conv : A -> list B) (add : S -> B -> outcome S) l s,
  (forall a, In a l -> h a = Ret (conv a)) -> foldM (fun s a => bs <- h a ;; foldM add bs s) l s = foldM add (flat_map conv l) s.
Proof.
  intros A B S h conv add l. induction l as [|a l IH]; intros s H; auto. cbn [foldM flat_map]. rewrite H by (left; auto). cbn [bind]. rewrite foldM_app.
  destruct (foldM add (conv a) s) eqn:E; cbn [bind]; auto. apply IH. intros b Hb. apply H. right. auto.
Qed.
Lemma esum_app : forall a b l, esum (a ++ b) l = esum a l + esum b l.
Proof. intros a b l. unfold esum. rewrite map_app. apply sumZ_app. Qed.

Section Proofs.
Variable maxi : bool.
Variable cut : nat -> list edge -> list bool.
Variable g : gmv Z.
Variable k : nat.
Hypothesis HC : min_cut_solver cut.
Hypothesis W : wf_gmv g.
Hypothesis SL : same_labels k g.
Hypothesis SO : second_order g.
Hypothesis SS : swap_submodular maxi k g.
Local Notation n := (length (v_labels g)).

Lemma factor_vars : forall fc, In fc (v_factors g) -> Forall (fun v => (v < n)%nat) (fst fc).
Proof. intros fc H. destruct W as [W1 _]. rewrite Forall_forall in W1. apply W1. auto. Qed.
Lemma fread_ok : forall fc l, In fc (v_factors g) -> Forall (fun i => (i < k)%nat) l -> fread g fc l = Ret (snd fc l).
Proof.
  intros fc l H HL. unfold fread. replace (forallb _ _) with true; auto. symmetry. apply forallb_forall. intros [v i] P. cbn [fst snd].
  assert (Hv : (v < n)%nat). { pose proof (factor_vars fc H) as F. rewrite Forall_forall in F. apply F. eapply in_combine_l; eauto. }
  rewrite Forall_forall in HL. apply Nat.ltb_lt. replace (nth v (v_labels g) 0%nat) with k; [apply HL; eapply in_combine_r; eauto|].
  symmetry. unfold same_labels in SL. rewrite Forall_forall in SL. apply SL. apply nth_In. auto.
Qed.

Section Move.
Variables a b : nat.
Hypothesis Ha : (a < k)%nat.
Hypothesis Hb : (b < k)%nat.
Variable x : list nat.
Hypothesis Hx : labeling g x.
Local Notation X v := (nth v x 0%nat).
Local Notation mem v := (sel a b (X v)).
Definition members : list nat := filter (fun v => mem v) (seq 0 n).
Lemma Lx : length x = n. Proof. apply labeling_length. auto. Qed.
Lemma X_lt : forall v, (v < n)%nat -> (X v < k)%nat.
Proof. intros v Hv. apply (same_labeling k g x SL) in Hx. destruct Hx as [L F]. rewrite Forall_forall in F. apply F. apply nth_In. lia. Qed.

Lemma number_ok : forall v2n : list nat, length v2n = n -> exists v2n', number_nodes g a b x v2n = Ret (v2n', length members) /\ length v2n' = n /\
  forall v, (v < n)%nat -> mem v = true -> (nth v v2n' 0 < length members)%nat /\ nth (nth v v2n' 0%nat) members 0%nat = v.
Proof.
  clear Ha Hb. intros v2n L. unfold number_nodes, members, sw_numVar.
  assert (G : forall i, (i <= n)%nat -> exists v2n', foldM (fun (st : list nat * nat) i => l <- rd x i ;; if sel a b l then v <- wr (fst st) i (snd st) ;; Ret (v, S (snd st)) else Ret st) (seq 0 i) (v2n, 0%nat) =
      Ret (v2n', length (filter (fun v => mem v) (seq 0 i))) /\ length v2n' = n /\
      forall v, (v < i)%nat -> mem v = true -> (nth v v2n' 0 < length (filter (fun v => mem v) (seq 0 i)))%nat /\ nth (nth v v2n' 0%nat) (filter (fun v => mem v) (seq 0 i)) 0%nat = v).
  { induction i as [|i IH]; intros Hi; [exists v2n; split; auto; split; auto; intros; lia|]. destruct (IH ltac:(lia)) as (v1 & E & L1 & P).
    rewrite seq_S. cbn [Nat.add]. rewrite foldM_app, E. cbn [bind foldM]. rewrite (rd_nth _ _ _ 0%nat) by (rewrite Lx; lia). cbn [bind fst snd]. rewrite filter_app. cbn [filter].
    destruct (mem i) eqn:M.
    - rewrite wr_Ret by lia. cbn [bind]. rewrite app_length. cbn [length]. exists (upd v1 i (length (filter (fun v => mem v) (seq 0 i)))). rewrite Nat.add_1_r. split; auto.
      rewrite length_upd. split; auto. intros v Hv Mv. destruct (Nat.eq_dec v i) as [->|N].
      + rewrite nth_upd_eq by lia. split; [lia|]. rewrite app_nth2, Nat.sub_diag by lia. auto.
      + rewrite nth_upd_neq by auto. destruct (P v ltac:(lia) Mv) as [P1 P2]. split; [lia|]. rewrite app_nth1 by lia. auto.
    - rewrite app_nil_r. exists v1. split; auto. split; auto. intros v Hv Mv. apply P; auto. destruct (Nat.eq_dec v i); [subst; congruence|lia]. }
  apply G. lia.
Qed.

Section Graph.
Variable v2n : list nat.
Hypothesis L2 : length v2n = n.
Hypothesis N2 : forall v, (v < n)%nat -> mem v = true -> (nth v v2n 0 < length members)%nat /\ nth (nth v v2n 0%nat) members 0%nat = v.
Local Notation nd v := (nth v v2n 0%nat).

Definition conv (fc : factor) : list factor :=
  let f := snd fc in
  match fst fc with
  | [v] => if mem v then [unary2 (nd v) (f [a]) (f [b])] else []
  | [v; w] => if mem v && mem w then [pair2 (nd v) (nd w) (f [a; a]) (f [a; b]) (f [b; a]) (f [b; b])]
              else if mem v && negb (mem w) then [unary2 (nd v) (f [a; X w]) (f [b; X w])]
              else if mem w && negb (mem v) then [unary2 (nd w) (f [X v; a]) (f [X v; b])] else []
  | _ => []
  end.
Lemma swap_factor_ok : forall fc, In fc (v_factors g) -> swap_factor g a b x v2n fc = Ret (conv fc).
Proof.
  intros fc H. pose proof (factor_vars fc H) as V. unfold swap_factor, conv. destruct fc as [[|v [|w [|z vis]]] f]; cbn [fst snd] in *; auto.
  - inversion V; subst. rewrite !(rd_nth _ _ _ 0%nat) by (rewrite ?Lx; lia). cbn [bind]. destruct (mem v); auto. rewrite !fread_ok by (auto; repeat constructor; auto). auto.
  - inversion V as [|? ? V1 V']; inversion V' as [|? ? V2 _]; subst. rewrite !(rd_nth _ v2n _ 0%nat) by lia. cbn [bind]. rewrite !(rd_nth _ x _ 0%nat) by (rewrite Lx; lia). cbn [bind].
    pose proof (X_lt v V1). pose proof (X_lt w V2).
    destruct (mem v), (mem w); cbn [andb negb]; auto; rewrite !fread_ok by (auto; repeat constructor; auto); auto.
Qed.
Lemma conv_small : small_factors (length members) (flat_map conv (v_factors g)).
Proof.
  apply Forall_forall. intros q Hq. apply in_flat_map in Hq. destruct Hq as (fc & Hf & Hq). pose proof (factor_vars fc Hf) as V.
  unfold conv in Hq. destruct fc as [[|v [|w [|z vis]]] f]; cbn [fst snd] in *; try (destruct Hq; fail).
  - inversion V; subst. destruct (mem v) eqn:M; [|destruct Hq]. destruct Hq as [<-|[]]. cbn. split; [lia|]. repeat constructor. apply N2; auto.
  - inversion V as [|? ? V1 V']; inversion V' as [|? ? V2 _]; subst.
    destruct (mem v) eqn:M1, (mem w) eqn:M2; cbn [andb negb] in Hq; try (destruct Hq; fail); destruct Hq as [<-|[]]; cbn; (split; [lia|]); repeat constructor; apply N2; auto.
Qed.
Lemma conv_submodular : submodular maxi (flat_map conv (v_factors g)).
Proof.
  apply Forall_forall. intros q Hq. apply in_flat_map in Hq. destruct Hq as (fc & Hf & Hq).
  unfold swap_submodular in SS. rewrite Forall_forall in SS. specialize (SS fc Hf). unfold second_order in SO.
  unfold conv in Hq. destruct fc as [[|v [|w [|z vis]]] f]; cbn [fst snd] in *; try (destruct Hq; fail).
  - destruct (mem v); [|destruct Hq]. destruct Hq as [<-|[]]. reflexivity.
  - specialize (SS eq_refl a b Ha Hb). destruct (mem v), (mem w); cbn [andb negb] in Hq; try (destruct Hq; fail); destruct Hq as [<-|[]]; unfold excess; cbn [fst snd unary2 pair2 nth Nat.eqb]; auto.
    unfold at_least_as_good in SS. destruct maxi; lia.
Qed.
Definition rest (fc : factor) : Z := match conv fc with [] => snd fc (map (fun v => X v) (fst fc)) | _ => 0 end.
Lemma conv_value : forall (y z : nat -> nat) fc, In fc (v_factors g) ->
  (forall v, (v < n)%nat -> z v = if mem v then if (y (nd v) =? 0)%nat then a else b else X v) ->
  snd fc (map z (fst fc)) = esum (conv fc) y + rest fc.
Proof.
  intros y z fc Hf Hz. pose proof (factor_vars fc Hf) as V. unfold second_order in SO. rewrite Forall_forall in SO. specialize (SO fc Hf).
  unfold rest, conv. destruct fc as [[|v [|w [|u vis]]] f]; cbn [fst snd] in *; [cbn; lia| | |cbn in SO; lia].
  - inversion V; subst. cbn [map]. rewrite (Hz v) by auto. destruct (mem v) eqn:M.
    + unfold esum. cbn [map sumZ fst snd unary2 nth]. destruct (y (nd v) =? 0)%nat; lia.
    + cbn. lia.
  - inversion V as [|? ? V1 V']; inversion V' as [|? ? V2 _]; subst. cbn [map]. rewrite (Hz v), (Hz w) by auto.
    destruct (mem v) eqn:M1, (mem w) eqn:M2; cbn [andb negb]; unfold esum; cbn [map sumZ fst snd unary2 pair2 nth]; try lia;
      destruct (y (nd v) =? 0)%nat, (y (nd w) =? 0)%nat; lia.
Qed.
Lemma conv_values : forall (y z : nat -> nat), (forall v, (v < n)%nat -> z v = if mem v then if (y (nd v) =? 0)%nat then a else b else X v) ->
  esum (v_factors g) z = esum (flat_map conv (v_factors g)) y + sumZ (map rest (v_factors g)).
Proof.
  intros y z Hz. assert (G : forall fs, (forall fc, In fc fs -> In fc (v_factors g)) -> esum fs z = esum (flat_map conv fs) y + sumZ (map rest fs)).
  { induction fs as [|fc fs IH]; intros H; auto. cbn [flat_map map sumZ]. rewrite esum_app. unfold esum at 1. cbn [map sumZ]. fold (esum fs z).
    rewrite IH by (intros; apply H; right; auto). rewrite (conv_value y z fc) by (auto; apply H; left; auto). lia. }
  apply G. auto.
Qed.
Lemma graph_ok : exists inf st x', swap_graph maxi g a b x v2n (length members) = Ret inf /\ gc_arg (gc_infer cut inf) = Ret st /\ swap_labels g a b x v2n st = Ret x' /\
  labeling g x' /\ swap_of a b x x' /\ forall y, swap_of a b x y -> at_least_as_good maxi (energy g x') (energy g y).
Proof.
  destruct (C40_factors maxi cut (length members) [0; 0; 0; 0]%nat 1 0 (flat_map conv (v_factors g)) HC ltac:(lia) eq_refl conv_small conv_submodular) as (inf & st & E1 & E2 & LS & OPT).
  apply binary_labeling in LS. destruct LS as [LS BS].
  exists inf, st, (map (fun v => if mem v then if (nth (nd v) st 0 =? 0)%nat then a else b else X v) (seq 0 n)).
  set (x' := map _ _). unfold swap_graph. rewrite (nested_fold _ _ _ _ conv) by (intros; apply swap_factor_ok; auto). split; [exact E1|]. split; [exact E2|].
  assert (Lx' : length x' = n) by (unfold x'; rewrite map_length, seq_length; auto).
  assert (Nx' : forall v, (v < n)%nat -> nth v x' 0%nat = if mem v then if (nth (nd v) st 0 =? 0)%nat then a else b else X v).
  { intros v Hv. unfold x'. set (h := fun v => _). rewrite (nth_indep _ 0%nat (h 0%nat)) by (rewrite map_length, seq_length; auto). rewrite map_nth, seq_nth by auto. auto. }
  split.
  { unfold swap_labels, x', sw_numVar. apply mapM_Ret. intros v Hv. apply in_seq in Hv. rewrite (rd_nth _ x _ 0%nat) by (rewrite Lx; lia). cbn [bind].
    destruct (mem v) eqn:M; auto. rewrite (rd_nth _ v2n _ 0%nat) by lia. cbn [bind]. rewrite (rd_nth _ st _ 0%nat) by (destruct (N2 v ltac:(lia) M); lia). auto. }
  split.
  { apply (same_labeling k g x' SL). split; auto. apply Forall_forall. intros l Hl. apply (In_nth _ _ 0%nat) in Hl. destruct Hl as (v & Hv & <-). rewrite Lx' in Hv. rewrite Nx' by auto.
    pose proof (X_lt v Hv). destruct (mem v); auto. destruct (_ =? 0)%nat; auto. }
  split.
  { split; [rewrite Lx, Lx'; auto|]. intros v Hv. rewrite Lx in Hv. rewrite Nx' by auto. destruct (mem v) eqn:M; auto. left. unfold sel in M. apply orb_true_iff in M.
    rewrite !Nat.eqb_eq in M. split; [tauto|]. destruct (_ =? 0)%nat; auto. }
  intros y [Ly Sy]. rewrite !energy_sum.
  set (yb := map (fun v => if (nth v y 0 =? a)%nat then 0%nat else 1%nat) members).
  assert (NY : forall j, (j < length members)%nat -> nth j yb 0%nat = if (nth (nth j members 0%nat) y 0 =? a)%nat then 0%nat else 1%nat).
  { intros j Hj. unfold yb. set (h := fun v => _). rewrite (nth_indep _ 0%nat (h 0%nat)) by (rewrite map_length; auto). rewrite map_nth. auto. }
  rewrite (conv_values (fun j => nth j st 0%nat) (fun v => nth v x' 0%nat)) by auto.
  rewrite (conv_values (fun j => nth j yb 0%nat) (fun v => nth v y 0%nat)).
  2:{ intros v Hv. specialize (Sy v ltac:(rewrite Lx; auto)). destruct (mem v) eqn:M.
      - destruct (N2 v Hv M) as [P1 P2]. rewrite NY by auto. rewrite P2. assert (Y : nth v y 0%nat = a \/ nth v y 0%nat = b).
        { destruct Sy as [[_ Y]|Y]; auto. rewrite Y. unfold sel in M. apply orb_true_iff in M. rewrite !Nat.eqb_eq in M. auto. }
        destruct (Nat.eqb_spec (nth v y 0%nat) a); cbn; auto. destruct Y; congruence.
      - destruct Sy as [[Y _]|Y]; auto. unfold sel in M. apply orb_false_iff in M. rewrite !Nat.eqb_neq in M. destruct M, Y; contradiction. }
  specialize (OPT yb). rewrite !energy_sum in OPT. cbn [v_factors] in OPT.
  assert (LY : labeling (mkGmv (repeat 2%nat (length members)) (flat_map conv (v_factors g))) yb).
  { apply binary_labeling. split; [unfold yb; apply map_length|]. apply Forall_forall. intros l Hl. unfold yb in Hl. apply in_map_iff in Hl. destruct Hl as (v & <- & _). destruct (_ =? _)%nat; lia. }
  specialize (OPT LY). unfold at_least_as_good in *. destruct maxi; lia.
Qed.
End Graph.
Lemma no_members : length members = 0%nat -> forall y, swap_of a b x y -> y = x.
Proof.
  clear Ha Hb. intros H y [Ly Sy]. apply length_zero_iff_nil in H. apply nth_ext with (d := 0%nat) (d' := 0%nat); auto. intros v Hv. rewrite Ly in Hv. destruct (Sy v Hv) as [[S1 _]|S1]; auto.
  exfalso. assert (In v members). { apply filter_In. rewrite Lx in Hv. split; [apply in_seq; lia|]. unfold sel. apply orb_true_iff. rewrite !Nat.eqb_eq. auto. }
  rewrite H in *. auto.
Qed.
End Move.

(** ** The loop *)
Lemma maxState_ok : (0 < n)%nat -> sw_maxState g = k.
Proof.
  intros Hn. unfold sw_maxState. assert (G : forall l m, Forall (fun j => j = k) l -> (m <= k)%nat -> (0 < length l \/ m = k)%nat -> fold_left (fun m j => if (m <? j)%nat then j else m) l m = k).
  { induction l as [|j l IH]; intros m F M D; cbn [fold_left]; [destruct D as [D|D]; auto; cbn in D; lia|]. inversion F; subst. apply IH; auto; destruct (Nat.ltb_spec m k); try lia; right; lia. }
  apply G; auto; lia.
Qed.
Lemma no_pairs : n = 0%nat -> numberOfLabelPairs g = 0%nat.
Proof. intros H. unfold numberOfLabelPairs, sw_maxState. destruct (v_labels g); [auto|discriminate]. Qed.
Definition pair_ok (s : sw) : Prop := sw_alpha s = 0%nat /\ sw_beta s = 0%nat \/ (sw_alpha s < sw_beta s < k)%nat.
Lemma increment_ok : forall a b, (0 < n)%nat -> (0 < numberOfLabelPairs g)%nat -> a = 0%nat /\ b = 0%nat \/ (a < b < k)%nat ->
  let (a', b') := increment g a b in (a' < b' < k)%nat.
Proof.
  clear HC W SO SS. intros a b Hn HP H. unfold numberOfLabelPairs in HP. unfold increment. rewrite maxState_ok in * by auto.
  assert (K : (2 <= k)%nat). { destruct k as [|[|k']]; [cbn in HP; lia|cbn in HP; lia|lia]. }
  destruct (Nat.leb_spec k (S b)); [|lia]. destruct (Nat.leb_spec (k - 1) (S a)); lia.
Qed.

Variable stop : nat -> bool.
Lemma loop_ok : forall iters calls s v2n unch ex, labeling g (sw_label s) -> pair_ok s -> length v2n = n ->
  exists s', sw_loop maxi cut g stop iters calls s v2n (energy g (sw_label s)) unch ex = Ret s' /\ labeling g (sw_label s') /\ pair_ok s' /\
    at_least_as_good maxi (energy g (sw_label s')) (energy g (sw_label s)) /\
    ((0 < iters)%nat -> (unch < numberOfLabelPairs g)%nat -> ex = false -> let (a, b) := increment g (sw_alpha s) (sw_beta s) in
      forall y, swap_of a b (sw_label s) y -> at_least_as_good maxi (energy g (sw_label s')) (energy g y)).
Proof.
  induction iters as [|iters IH]; intros calls s v2n unch ex HL HP L2; cbn [sw_loop].
  { exists s. split; auto. split; auto. split; auto. split; [apply alag_refl|]. lia. }
  destruct (Nat.ltb_spec unch (numberOfLabelPairs g)) as [U|U]; cbn [andb].
  2:{ exists s. split; auto. split; auto. split; auto. split; [apply alag_refl|]. lia. }
  destruct ex; cbn [negb]. { exists s. split; auto. split; auto. split; auto. split; [apply alag_refl|]. discriminate. }
  assert (Hn : (0 < n)%nat). { destruct (Nat.eq_dec n 0) as [E|E]; [pose proof (no_pairs E); lia|lia]. }
  pose proof (increment_ok (sw_alpha s) (sw_beta s) Hn ltac:(lia) HP) as INC. destruct (increment g (sw_alpha s) (sw_beta s)) as [a b] eqn:EI. cbn [sw_label].
  destruct (number_ok a b (sw_label s) HL v2n L2) as (v2 & EN & L2' & N2). rewrite EN. cbn [bind].
  destruct (Nat.eqb_spec (length (members a b (sw_label s))) 0) as [Z0|Z0].
  - destruct (IH calls (mkSw (sw_label s) a b) v2 unch false HL) as (s' & E & A & B & C & _); [right; auto|auto|]. exists s'. split; auto. split; auto. split; auto. split; auto.
    intros _ _ _ y Hy. rewrite (no_members a b (sw_label s) HL Z0 y Hy). auto.
  - destruct (graph_ok a b ltac:(lia) ltac:(lia) (sw_label s) HL v2 L2' N2) as (inf & st & x' & E1 & E2 & E3 & A & B & C). rewrite E1. cbn [bind]. rewrite E2. cbn [bind]. rewrite E3. cbn [bind].
    rewrite (v_evaluate_total Z AdderZ g x' W (labeling_length _ g _ A)). cbn [bind]. fold (energy g x').
    assert (C0 : at_least_as_good maxi (energy g x') (energy g (sw_label s))). { apply C. split; auto. }
    set (s1 := mkSw x' a b). assert (P1 : pair_ok s1) by (right; auto).
    assert (R : exists s', (if bopZ maxi (energy g x') (energy g (sw_label s)) then sw_loop maxi cut g stop iters (S calls) s1 v2 (energy g x') unch (stop calls)
      else sw_loop maxi cut g stop iters (S calls) s1 v2 (energy g (sw_label s)) (S unch) (stop calls)) = Ret s' /\ labeling g (sw_label s') /\ pair_ok s' /\
      at_least_as_good maxi (energy g (sw_label s')) (energy g x')).
    { destruct (bopZ maxi (energy g x') (energy g (sw_label s))) eqn:BO.
      - destruct (IH (S calls) s1 v2 unch (stop calls) A P1 L2') as (s' & E & D1 & D2 & D3 & _). exists s'. auto.
      - rewrite <- (bopZ_false maxi _ _ BO C0). destruct (IH (S calls) s1 v2 (S unch) (stop calls) A P1 L2') as (s' & E & D1 & D2 & D3 & _). exists s'. auto. }
    destruct R as (s' & E & D1 & D2 & D3). exists s'. split; auto. split; auto. split; auto. split; [eapply alag_trans; eauto|]. intros _ _ _ y Hy. eapply alag_trans; [exact D3|]. apply C. auto.
Qed.
Lemma infer_swap_ok : forall maxIter s, labeling g (sw_label s) -> pair_ok s ->
  exists s', sw_infer maxi cut g stop maxIter s = Ret s' /\ labeling g (sw_label s') /\ pair_ok s' /\
    at_least_as_good maxi (energy g (sw_label s')) (energy g (sw_label s)) /\
    ((0 < maxIter)%nat -> (0 < numberOfLabelPairs g)%nat -> let (a, b) := increment g (sw_alpha s) (sw_beta s) in
      forall y, swap_of a b (sw_label s) y -> at_least_as_good maxi (energy g (sw_label s')) (energy g y)).
Proof.
  intros mi s HL HP. unfold sw_infer. rewrite (v_evaluate_total Z AdderZ g _ W (labeling_length _ g _ HL)). cbn [bind]. fold (energy g (sw_label s)).
  destruct (loop_ok mi 0 s (repeat 0%nat (sw_numVar g)) 0 false HL HP (repeat_length _ _)) as (s' & E & A & B & C & D). exists s'. split; auto. split; auto. split; auto. split; auto. intros H1 H2. exact (D H1 H2 eq_refl).
Qed.
End Proofs.
