From Coq Require Import Zpow_facts.
From Verif Require Import Base UpModel.
Open Scope Z_scope.

Lemma word_pos : 0 < up_word. Proof. reflexivity. Qed.
Lemma loop_ok fuel : forall b e r, 0 <= e < 2 ^ Z.of_nat fuel -> 0 <= r < up_word -> up_loop (S fuel) b e r = Ret ((r * b ^ e) mod up_word).
Proof.
  induction fuel as [|fuel IH]; intros b e r E R.
  - replace e with 0 by (cbn in E; lia). cbn [up_loop Z.eqb]. rewrite Z.pow_0_r, Z.mul_1_r, Z.mod_small by exact R. reflexivity.
  - cbn [up_loop]. destruct (e =? 0) eqn:E0.
    + apply Z.eqb_eq in E0. subst. rewrite Z.pow_0_r, Z.mul_1_r, Z.mod_small by exact R. reflexivity.
    + apply Z.eqb_neq in E0. rewrite Nat2Z.inj_succ, Z.pow_succ_r in E by lia.
      assert (D := Z.div_mod e 2 ltac:(lia)). assert (B := Z.mod_pos_bound e 2 ltac:(lia)).
      assert (H2 : 0 <= e / 2 < 2 ^ Z.of_nat fuel) by lia.
      set (r' := if e mod 2 =? 1 then (r * b) mod up_word else r).
      assert (R' : 0 <= r' < up_word) by (unfold r'; destruct (e mod 2 =? 1); [apply Z.mod_pos_bound; reflexivity|exact R]).
      change (up_loop (S fuel) ((b * b) mod up_word) (e / 2) r' = Ret ((r * b ^ e) mod up_word)). rewrite IH by assumption. f_equal.
      rewrite Z.mul_mod by (unfold up_word; lia). rewrite <- (Zpower_mod (b * b)) by reflexivity. rewrite <- Z.mul_mod by (unfold up_word; lia).
      replace ((b * b) ^ (e / 2)) with (b ^ (2 * (e / 2))) by (rewrite Z.pow_mul_r by lia; rewrite Z.pow_2_r; reflexivity).
      unfold r'. destruct (e mod 2 =? 1) eqn:O.
      * apply Z.eqb_eq in O. rewrite O in D. rewrite Z.mul_mod_idemp_l by (unfold up_word; lia). rewrite D at 2. rewrite Z.pow_add_r, Z.pow_1_r by lia. f_equal. ring.
      * apply Z.eqb_neq in O. replace (e mod 2) with 0 in D by lia. rewrite Z.add_0_r in D. rewrite <- D. reflexivity.
Qed.

(** The power of all numbers of 64 bits, modulo 2^64; it is exact where it fits. *)
Theorem C78_pow b e : 0 <= b < 2 ^ 64 -> 0 <= e < 2 ^ 64 -> up_pow b e = Ret (b ^ e mod 2 ^ 64).
Proof.
  intros B E. unfold up_pow. destruct (b =? 1) eqn:B1; [apply Z.eqb_eq in B1; subst; rewrite Z.pow_1_l by lia; reflexivity|].
  destruct ((b =? 0) && (0 <? e)) eqn:B0; [apply andb_prop in B0; destruct B0 as [B0 E0]; apply Z.eqb_eq in B0; apply Z.ltb_lt in E0; subst; rewrite Z.pow_0_l by lia; reflexivity|].
  rewrite (loop_ok 64) by (try exact E; split; reflexivity || discriminate). rewrite Z.mul_1_l. reflexivity.
Qed.
Print Assumptions C78_pow.
Theorem C78_exact b e : 0 <= b < 2 ^ 64 -> 0 <= e < 2 ^ 64 -> b ^ e < 2 ^ 64 -> up_pow b e = Ret (b ^ e).
Proof. intros B E F. rewrite C78_pow by assumption. rewrite Z.mod_small; [reflexivity|]. split; [apply Z.pow_nonneg; lia|exact F]. Qed.
Print Assumptions C78_exact.
Example C78_example : up_pow 3 40 = Ret (3 ^ 40) /\ 3 ^ 40 < 2 ^ 64 /\ up_pow 0 0 = Ret 1 /\ up_pow 10 20 = Ret 7766279631452241920.
Proof. repeat split; vm_compute; reflexivity. Qed.

(** Every kind of loss is 0 at the true label, and apart from the Hamming loss none is negative if no multiplier is. *)
Theorem C78_loss t gt m vec mat l n : (l < n)%nat -> (gt < n)%nat -> length vec = n -> length mat = n -> Forall (fun r => length r = n) mat ->
  exists x, ul_value t gt m vec mat l = Ret x /\ (l = gt -> x = 0) /\
    (t <> HammingLoss -> 0 <= m -> Forall (Z.le 0) vec -> Forall (Forall (Z.le 0)) mat -> 0 <= x) /\
    (t = HammingLoss -> 0 <= m -> x <= 0).
Proof.
  intros L G V M R. unfold ul_value.
  assert (D : (l = gt /\ Nat.eqb l gt = true) \/ (l <> gt /\ Nat.eqb l gt = false)) by (destruct (Nat.eqb_spec l gt); auto).
  assert (NV : forall i, (i < n)%nat -> Forall (Z.le 0) vec -> 0 <= nth i vec 0) by (intros i I F; rewrite Forall_forall in F; apply F, nth_In; lia).
  destruct t.
  - eexists. split; [reflexivity|]. destruct D as [[-> ->]|[N ->]]; repeat split; intros; try lia; try contradiction; congruence.
  - rewrite (rd_nth _ vec l 0) by lia. eexists. split; [reflexivity|]. specialize (NV l L). destruct D as [[E ->]|[N ->]]; repeat split; intros; try discriminate; try lia; try contradiction. specialize (NV H1). nia.
  - rewrite (rd_nth _ vec gt 0) by lia. eexists. split; [reflexivity|]. specialize (NV gt G). destruct D as [[E ->]|[N ->]]; repeat split; intros; try discriminate; try lia; try contradiction. specialize (NV H1). nia.
  - rewrite (rd_nth _ mat l []) by lia. cbn [bind]. assert (I : In (nth l mat []) mat) by (apply nth_In; lia). rewrite Forall_forall in R. rewrite (rd_nth _ _ gt 0) by (rewrite (R _ I); exact G).
    eexists. split; [reflexivity|]. assert (NM : Forall (Forall (Z.le 0)) mat -> 0 <= nth gt (nth l mat []) 0).
    { intros F. rewrite Forall_forall in F. specialize (F _ I). rewrite Forall_forall in F. apply F, nth_In. rewrite (R _ I). exact G. }
    destruct D as [[E ->]|[N ->]]; repeat split; intros; try discriminate; try lia; try contradiction. specialize (NM H2). nia.
  - eexists. split; [reflexivity|]. repeat split; intros; try discriminate; try nia.
  - eexists. split; [reflexivity|]. repeat split; intros; try discriminate; [subst; rewrite Z.sub_diag; cbn; lia|]. apply Z.mul_nonneg_nonneg; [assumption|]. rewrite Z.pow_2_r. apply Z.square_nonneg.
Qed.
Print Assumptions C78_loss.
Example C78_loss_example : ul_value LabelMatrix 1 2 [5; 6] [[1; 2]; [3; 4]] 0 = Ret 4 /\ ul_value L2Loss 1 2 [5; 6] [[1; 2]; [3; 4]] 4 = Ret 18.
Proof. split; reflexivity. Qed.

(** Refuted: that all kinds of loss have the same sign.  The Hamming loss of two labels is the negative of the distance of neighbouring labels. *)
Theorem C78_sign_refuted m vec mat : ul_value HammingLoss 0 m vec mat 1 = Ret (- m) /\ ul_value L1Loss 0 m vec mat 1 = Ret m /\ ul_value L2Loss 0 m vec mat 1 = Ret m.
Proof. unfold ul_value. cbn [Nat.eqb]. repeat split; f_equal; try ring; cbn; ring. Qed.
Print Assumptions C78_sign_refuted.

(** The values at other labels, whose distance from the true one is d. *)
Theorem C78_loss_values gt m vec mat l d v w r u : l <> gt -> (l = gt + d \/ gt = l + d)%nat -> nth_error vec l = Some v -> nth_error vec gt = Some w -> nth_error mat l = Some r -> nth_error r gt = Some u ->
  ul_value HammingLoss gt m vec mat l = Ret (- m) /\ ul_value LabelVectorConf gt m vec mat l = Ret (m * v) /\ ul_value LabelVectorGt gt m vec mat l = Ret (m * w) /\
  ul_value LabelMatrix gt m vec mat l = Ret (m * u) /\ ul_value L1Loss gt m vec mat l = Ret (m * Z.of_nat d) /\ ul_value L2Loss gt m vec mat l = Ret (m * (Z.of_nat d * Z.of_nat d)).
Proof.
  intros N D V W R U. unfold ul_value. apply Nat.eqb_neq in N. rewrite N, (rd_Ret _ _ _ _ V), (rd_Ret _ _ _ _ W), (rd_Ret _ _ _ _ R). cbn [bind]. rewrite (rd_Ret _ _ _ _ U). cbn [bind].
  repeat split; f_equal; try ring; [f_equal; lia|]. rewrite Z.pow_2_r. f_equal. destruct D as [-> | ->]; rewrite Nat2Z.inj_add; ring.
Qed.
Print Assumptions C78_loss_values.
Example C78_loss_values_example : nth_error [5; 6] 0 = Some 5 /\ nth_error [5; 6] 1 = Some 6 /\ nth_error [[1; 2]; [3; 4]] 0 = Some [1; 2] /\ nth_error [1; 2] 1 = Some 2 /\ (1 = 0 + 1)%nat.
Proof. repeat split. Qed.
