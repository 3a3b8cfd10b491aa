(** C51: soft constraint functions: label costs and the sum constraint. *)
From Coq Require Import QArith Qcanon Sorted Permutation Lqa.
From Verif Require Import Base ShapeSpec ShapeProofs IndexingModel UtilModel FunctionsModel FunctionsSpec FunctionsProofs FunctionsProps ConstraintModel ConstraintSpec ConstraintProofs ConstraintCounts ConstraintFuncs ConstraintLabels ConstraintRound ConstraintProps.
Open Scope nat_scope.

(** What a labeling pays: every label that occurs once, however often it occurs. *)
Definition pays (costs : lcosts) (x : list nat) : Qc :=
  match costs with Costs k => Qc_sum (map (fun l => nth l k 0%Qc) (nodup Nat.eq_dec x)) | SingleCost l k => if in_dec Nat.eq_dec l x then k else 0%Qc end.
(** There is a cost for each label. *)
Definition enough (costs : lcosts) (sh : list nat) : Prop := match costs with Costs k => Forall (fun n => n <= length k) sh | SingleCost _ _ => True end.

Lemma pays_ok : forall s sh costs x, vs_ok s sh -> in_shape sh x -> enough costs sh -> lcost_call (mkLcost s costs) x = Ret (pays costs x).
Proof. intros s sh costs x HS HX HE. pose proof (lcost_call_ok s sh costs x HS HX) as H. destruct costs; cbn in *; auto. Qed.
Theorem C51_label_cost : forall sh costs, enough costs sh -> let f := lcost_new sh costs in
  has_shape lcost_ft f sh /\ forall x, in_shape sh x -> ft_call lcost_ft f x = Ret (pays costs x).
Proof. intros sh costs HE f. split. { apply (vs_has_shape _ _ _ _ (vs_list sh)); auto. apply vs_list_ok. } intros x HX. apply (pays_ok _ sh); auto. apply vs_list_ok. Qed.
Theorem C51_label_cost_uniform : forall n k costs, small n -> small k -> enough costs (repeat k n) ->
  exists f, lcost_new_uniform n k costs = Ret f /\ has_shape lcost_ft f (repeat k n) /\ forall x, in_shape (repeat k n) x -> ft_call lcost_ft f x = Ret (pays costs x).
Proof.
  intros n k costs Hn Hk HE. destruct (vs_uniform_ok n k Hn Hk) as (s & E & V & _). unfold lcost_new_uniform. rewrite E. cbn [bind]. eexists. split; [reflexivity|]. split. { apply (vs_has_shape _ _ _ _ s); auto. } intros x HX. apply (pays_ok _ (repeat k n)); auto.
Qed.
(** The cost of a labeling is that of any other with the same set of labels. *)
Theorem C51_same_labels : forall costs x y, (forall l, In l x <-> In l y) -> pays costs x = pays costs y.
Proof.
  intros costs x y H. destruct costs as [k|l k]; cbn [pays].
  - apply Qc_sum_perm, Permutation_map, NoDup_Permutation; try apply NoDup_nodup. intros l. rewrite !nodup_In. auto.
  - destruct (in_dec Nat.eq_dec l x) as [I|I], (in_dec Nat.eq_dec l y) as [J|J]; auto; exfalso; [apply J|apply I]; apply H; auto.
Qed.
Lemma new_offsets : forall sh coeffs share lambda bound,
  exists o, sumf_new sh coeffs share lambda bound = Ret (mkSumf (vs_list sh) coeffs share o lambda bound) /\ (share = false -> o = map (fun i => list_sum (firstn i sh)) (seq 0 (length sh))).
Proof.
  intros sh coeffs share lambda bound. unfold sumf_new. destruct share. { exists []. cbn [bind]. split; auto. discriminate. }
  rewrite (offsets_loop sh (length sh) (rd sh)); auto. 2: { intros i Hi. apply rd_nth. auto. } cbn [bind]. eexists. split; [reflexivity|]. intros _. rewrite Nat.sub_diag. cbn. rewrite app_nil_r. auto.
Qed.
Lemma new_uniform_offsets : forall n k s coeffs share lambda bound, vs_uniform n k = Ret s ->
  exists o, sumf_new_uniform n k coeffs share lambda bound = Ret (mkSumf s coeffs share o lambda bound) /\ (share = false -> o = map (fun i => list_sum (firstn i (repeat k n))) (seq 0 n)).
Proof.
  intros n k s coeffs share lambda bound E. unfold sumf_new_uniform. rewrite E. cbn [bind]. destruct share. { exists []. cbn [bind]. split; auto. discriminate. }
  rewrite (offsets_loop (repeat k n) n (fun _ => Ret k)); auto. { cbn [bind]. eexists. split; [reflexivity|]. intros _. rewrite Nat.sub_diag. cbn. rewrite app_nil_r. auto. } { rewrite repeat_length. auto. }
  intros i Hi. rewrite (nth_indep _ 0 k) by (rewrite repeat_length; auto). rewrite nth_repeat. auto.
Qed.
(** |sum of the selected coefficients - bound| times lambda. *)
Theorem C51_sum_constraint : forall sh coeffs share lambda bound, tables_fit share sh coeffs ->
  exists f, sumf_new sh coeffs share lambda bound = Ret f /\ has_shape sumf_ft f sh /\
    forall x, in_shape sh x -> ft_call sumf_ft f x = Ret (absolute (Qc_sum (selected share sh coeffs x) - bound) * lambda)%Qc.
Proof.
  intros sh coeffs share lambda bound HT. destruct (new_offsets sh coeffs share lambda bound) as (o & E & O). rewrite E. eexists. split; [reflexivity|]. split. { apply (vs_has_shape _ _ _ _ (vs_list sh)); auto. apply vs_list_ok. }
  intros x HX. apply sumf_call_ok; auto. apply vs_list_ok.
Qed.
Theorem C51_sum_constraint_uniform : forall n k coeffs share lambda bound, small n -> small k -> tables_fit share (repeat k n) coeffs ->
  exists f, sumf_new_uniform n k coeffs share lambda bound = Ret f /\ has_shape sumf_ft f (repeat k n) /\
    forall x, in_shape (repeat k n) x -> ft_call sumf_ft f x = Ret (absolute (Qc_sum (selected share (repeat k n) coeffs x) - bound) * lambda)%Qc.
Proof.
  intros n k coeffs share lambda bound Hn Hk HT. destruct (vs_uniform_ok n k Hn Hk) as (s & Es & V & _). destruct (new_uniform_offsets n k s coeffs share lambda bound Es) as (o & E & O). rewrite E. eexists. split; [reflexivity|]. split. { apply (vs_has_shape _ _ _ _ s); auto. }
  intros x HX. apply sumf_call_ok; auto. rewrite repeat_length. auto.
Qed.
(** Zero exactly where the constraint holds. *)
Theorem C51_sum_zero : forall a b lambda, lambda <> 0%Qc -> ((absolute (a - b) * lambda)%Qc = 0%Qc <-> a = b).
Proof.
  intros a b lambda NZ. split.
  - intros H. apply Qcmult_integral in H as [H|H]; [|contradiction]. unfold absolute in H. destruct (Qclt_le_dec (a - b) 0); qc.
  - intros ->. unfold absolute. destruct (Qclt_le_dec (b - b) 0) as [L|L]; [exfalso; qc|]. replace (b - b)%Qc with 0%Qc by qc. apply Qcmult_0_l.
Qed.
Print Assumptions C51_label_cost. Print Assumptions C51_label_cost_uniform. Print Assumptions C51_same_labels. Print Assumptions C51_sum_constraint. Print Assumptions C51_sum_constraint_uniform. Print Assumptions C51_sum_zero.

(** ** Writing and reading *)
Definition cost_made (f : lcost) : Prop :=
  (exists sh costs, fits sh /\ enough costs sh /\ f = lcost_new sh costs) \/ (exists n k costs, small n /\ small k /\ enough costs (repeat k n) /\ lcost_new_uniform n k costs = Ret f).
Theorem C51_label_cost_round : round_trips lcost_ft cost_made any.
Proof.
  intros f dst sh0 HM _ HS.
  assert (G : exists s sh costs, vs_origin s sh /\ enough costs sh /\ f = mkLcost s costs).
  { destruct HM as [(sh & costs & (P & Z & N) & HE & E)|(n & k & costs & Hn & Hk & HE & E)].
    - exists (vs_list sh), sh, costs. split; auto. left. auto.
    - unfold lcost_new_uniform in E. destruct (vs_uniform_ok n k Hn Hk) as (s & Es & V & _). rewrite Es in E. cbn [bind] in E. injection E as <-. exists s, (repeat k n), costs. split; auto. right. exists n, k. auto. }
  destruct G as (s & sh & costs & HO & HE & ->). pose proof (origin_ok _ _ HO) as OK.
  assert (HS2 : has_shape lcost_ft (mkLcost s costs) sh) by (eapply vs_has_shape; eauto). pose proof (has_shape_unique _ _ _ _ _ _ HS HS2). subst sh0. destruct (vs_round s sh HO) as (w & EW & LW & LS & WS & s' & EB & OK' & N' & SA' & SZ' & SS').
  cbn [lcost_ft ft_serialize ft_deserialize ft_indexSequenceSize ft_valueSequenceSize ft_size ft_call]. unfold lcost_serialize. cbn [lk_sh lk_costs].
  assert (EW' : (if vs_same s then Ret [vs_max s] else mapM (rd (vs_shape s)) (seq 0 (vs_num s))) = Ret w). { rewrite <- EW. unfold vs_write. destruct (vs_same s) eqn:ES; auto. rewrite LS by auto. auto. }
  rewrite EW'. cbn [bind]. clear EW'.
  assert (RD : forall t, nexts (if (if vs_same s then 1 else 0) =? 1 then 1 else vs_num s) (w ++ t) = Ret (w, t)). { intros t. destruct (vs_same s); cbn [Nat.eqb]; rewrite <- LW; apply nexts_ok. }
  assert (BK : forall c, (if (if vs_same s then 1 else 0) =? 1 then n <- rd w 0 ;; lcost_new_uniform (vs_num s) n c else Ret (lcost_new w c)) = Ret (mkLcost s' c)).
  { intros c. unfold vs_back in EB. destruct (vs_same s); cbn [Nat.eqb].
    - destruct (rd w 0) as [k| | |]; try discriminate. cbn [bind] in *. unfold lcost_new_uniform. rewrite EB. auto.
    - injection EB as <-. auto. }
  assert (FIN : forall f', f' = mkLcost s' costs -> has_shape lcost_ft f' sh /\ vs_size (lk_sh f') = vs_size s /\ 1 + 1 + (if vs_same (lk_sh f') then 1 else vs_num (lk_sh f')) + 1 + 1 = 1 + 1 + (if vs_same s then 1 else vs_num s) + 1 + 1 /\
     lk_costs f' = costs /\ forall c, in_shape sh c -> exists v, lcost_call (mkLcost s costs) c = Ret v /\ lcost_call f' c = Ret v).
  { intros f' ->. cbn [lk_sh lk_costs]. split. { eapply vs_has_shape; eauto. } rewrite SZ', SA', N'. repeat split; auto. intros c Hc. rewrite !(pays_ok _ sh) by auto. eauto. }
  destruct (FIN _ eq_refl) as (F1 & F2 & F3 & _ & F5). destruct costs as [ks|l k].
  - rewrite mapM_rd_all. cbn [bind]. eexists _, _. split; [reflexivity|]. split. { cbn [length]. rewrite app_length. cbn [length]. rewrite LW. lia. } split; auto.
    intros ix' vs'. exists (mkLcost s' (Costs ks)). split; [|auto]. unfold lcost_deserialize. cbn [app next bind]. rewrite <- app_assoc, RD. cbn [bind app next Nat.eqb]. rewrite nexts_ok. cbn [bind]. apply BK.
  - eexists _, _. split; [reflexivity|]. split. { cbn [length]. rewrite app_length. cbn [length]. rewrite LW. lia. } split; auto.
    intros ix' vs'. exists (mkLcost s' (SingleCost l k)). split; [|auto]. unfold lcost_deserialize. cbn [app next bind]. rewrite <- app_assoc, RD. cbn [bind app next Nat.eqb]. apply BK.
Qed.
Definition sum_made (f : sumf) : Prop :=
  (exists sh coeffs share lambda bound, fits sh /\ tables_fit share sh coeffs /\ sumf_new sh coeffs share lambda bound = Ret f) \/
  (exists n k coeffs share lambda bound, small n /\ small k /\ tables_fit share (repeat k n) coeffs /\ sumf_new_uniform n k coeffs share lambda bound = Ret f).
Theorem C51_sum_round : round_trips sumf_ft sum_made any.
Proof.
  intros f dst sh0 HM _ HS.
  assert (G : exists s sh coeffs share o lambda bound, vs_origin s sh /\ tables_fit share sh coeffs /\ f = mkSumf s coeffs share o lambda bound /\ (share = false -> o = map (fun i => list_sum (firstn i sh)) (seq 0 (length sh)))).
  { destruct HM as [(sh & coeffs & share & lambda & bound & (P & Z & N) & HT & E)|(n & k & coeffs & share & lambda & bound & Hn & Hk & HT & E)].
    - destruct (new_offsets sh coeffs share lambda bound) as (o & E' & O). exists (vs_list sh), sh, coeffs, share, o, lambda, bound. split. { left. auto. } split; auto. split; [congruence|auto].
    - destruct (vs_uniform_ok n k Hn Hk) as (s & Es & V & _). destruct (new_uniform_offsets n k s coeffs share lambda bound Es) as (o & E' & O). exists s, (repeat k n), coeffs, share, o, lambda, bound. split. { right. exists n, k. auto. } split; auto. split; [congruence|rewrite repeat_length; auto]. }
  destruct G as (s & sh & coeffs & share & o & lambda & bound & HO & HT & -> & OO). pose proof (origin_ok _ _ HO) as OK.
  assert (HS2 : has_shape sumf_ft (mkSumf s coeffs share o lambda bound) sh) by (eapply vs_has_shape; eauto). pose proof (has_shape_unique _ _ _ _ _ _ HS HS2). subst sh0. destruct (vs_round s sh HO) as (w & EW & LW & LS & WS & s' & EB & OK' & N' & SA' & SZ' & SS').
  cbn [sumf_ft ft_serialize ft_deserialize ft_indexSequenceSize ft_valueSequenceSize ft_size ft_call]. unfold sumf_serialize. cbn [sc_sh sc_coeffs sc_share sc_lambda sc_bound]. rewrite EW. cbn [bind]. rewrite mapM_rd_all. cbn [bind]. eexists _, _. split; [reflexivity|].
  split. { cbn [length]. rewrite app_length, LW. cbn [length]. destruct (vs_same s); [lia|]. rewrite LS by auto. lia. } split. { rewrite app_length. cbn [length]. lia. }
  intros ix' vs'.
  assert (BK : exists o', (if negb ((if vs_same s then 1 else 0) =? 0) then m <- rd w 0 ;; sumf_new_uniform (vs_num s) m coeffs (negb ((if share then 1 else 0) =? 0)) lambda bound else sumf_new w coeffs (negb ((if share then 1 else 0) =? 0)) lambda bound) = Ret (mkSumf s' coeffs share o' lambda bound) /\
     (share = false -> o' = map (fun i => list_sum (firstn i sh)) (seq 0 (length sh)))).
  { replace (negb ((if share then 1 else 0) =? 0)) with share by (destruct share; auto). unfold vs_back in EB. destruct (vs_same s) eqn:ES; cbn [Nat.eqb negb].
    - destruct (rd w 0) as [k| | |]; try discriminate. cbn [bind] in *. destruct (new_uniform_offsets _ _ _ coeffs share lambda bound EB) as (o' & E' & O'). exists o'. split; auto. intros H. rewrite (O' H).
      assert (ESH : sh = repeat k (vs_num s)). { destruct OK' as (X1 & X2 & _). rewrite X2 by auto. f_equal; auto. unfold vs_uniform in EB. destruct (unsignedIntegerPow _ _); try discriminate EB. injection EB as <-. auto. }
      rewrite ESH, repeat_length. auto.
    - destruct (new_offsets w coeffs share lambda bound) as (o' & E' & O'). injection EB as <-. exists o'. split; auto. rewrite WS in O' by auto. auto. }
  destruct BK as (o' & BK & OO'). exists (mkSumf s' coeffs share o' lambda bound). split.
  { unfold sumf_deserialize. cbn [app next bind]. rewrite <- app_assoc. rewrite (back_read s sh) by auto. cbn [bind app next]. rewrite <- app_assoc, nexts_ok. cbn [bind app next]. exact BK. }
  split. { eapply vs_has_shape; eauto. } cbn [sc_sh sc_coeffs]. rewrite SZ', SA'. split; auto. split. { destruct (vs_same s) eqn:ES; auto. rewrite SS' by auto. auto. } split; auto.
  intros c Hc. rewrite !(sumf_call_ok _ sh) by auto. eauto.
Qed.
(** The size of functions of 32 variables with two labels is not the same after a round trip. *)
Theorem C51_size_refuted :
  (exists ix vs f', lcost_serialize (lcost_new (repeat 2 32) (SingleCost 0 1%Qc)) = Ret (ix, vs) /\ lcost_deserialize ix vs (lcost_new [] (SingleCost 0 1%Qc)) = Ret f' /\
     ft_size lcost_ft (lcost_new (repeat 2 32) (SingleCost 0 1%Qc)) = 0%Z /\ ft_size lcost_ft f' = (2 ^ 32)%Z) /\
  (exists f ix vs f', sumf_new (repeat 2 32) [0%Qc; 1%Qc] true 1%Qc 1%Qc = Ret f /\ sumf_serialize f = Ret (ix, vs) /\ sumf_deserialize ix vs f = Ret f' /\ ft_size sumf_ft f = 0%Z /\ ft_size sumf_ft f' = (2 ^ 32)%Z).
Proof.
  split.
  - exists [32; 1; 2; 1; 0], [1%Qc], (mkLcost (mkVs [] 32 true 2 (2 ^ 32)%Z) (SingleCost 0 1%Qc)). repeat split; vm_compute; reflexivity.
  - exists (mkSumf (vs_list (repeat 2 32)) [0%Qc; 1%Qc] true [] 1%Qc 1%Qc), [1; 32; 2; 1; 2], [0%Qc; 1%Qc; 1%Qc; 1%Qc], (mkSumf (mkVs [] 32 true 2 (2 ^ 32)%Z) [0%Qc; 1%Qc] true [] 1%Qc 1%Qc). repeat split; vm_compute; reflexivity.
Qed.
Print Assumptions C51_label_cost_round. Print Assumptions C51_sum_round. Print Assumptions C51_size_refuted.
Example C51_case : lcost_call (lcost_new [3; 2; 3] (Costs [Qc_of 1; Qc_of 2; Qc_of 4])) [2; 0; 2] = Ret (Qc_of 5) /\ enough (Costs [Qc_of 1; Qc_of 2; Qc_of 4]) [3; 2; 3] /\
  (f <- sumf_new [2; 3] [Qc_of 1; Qc_of 2; Qc_of 10; Qc_of 20; Qc_of 30] false (Qc_of 3) (Qc_of 25) ;; sumf_call f [1; 1]) = Ret (Qc_of 9) /\
  tables_fit false [2; 3] [Qc_of 1; Qc_of 2; Qc_of 10; Qc_of 20; Qc_of 30] /\ fits [3; 2; 3].
Proof.
  split; [vm_compute; reflexivity|]. split; [repeat constructor|]. split; [vm_compute; reflexivity|]. split; [|repeat split; repeat constructor]. intros i Hi. cbn [length] in Hi. assert (C : i = 0 \/ i = 1) by lia. destruct C as [C|C]; rewrite C; vm_compute; lia.
Qed.
