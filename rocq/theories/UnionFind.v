(** Theory of parent forests shared by Partition and disjoint_set. *)
From Coq Require Import Relations.
From Verif Require Import Base PartitionModel.

Inductive Path (ps : list nat) : nat -> list nat -> nat -> Prop :=
| Path_root : forall x, nth_error ps x = Some x -> Path ps x [x] x
| Path_step : forall x y l r,
    nth_error ps x = Some y -> x <> y -> Path ps y l r -> Path ps x (x :: l) r.

Definition Root (ps : list nat) (x r : nat) : Prop := exists l, Path ps x l r.

Definition Forest (ps rs : list nat) : Prop :=
  length rs = length ps /\
  forall x y, nth_error ps x = Some y ->
    y < length ps /\ (x <> y -> nth x rs 0 < nth y rs 0).

Lemma Path_lt : forall ps x l r, Path ps x l r -> x < length ps.
Proof.
  intros ps x l r H. destruct H as [x H|x y l r H _ _];
    apply nth_error_Some; congruence.
Qed.

Lemma Path_det : forall ps x l r, Path ps x l r ->
  forall l' r', Path ps x l' r' -> l = l' /\ r = r'.
Proof.
  induction 1 as [x H|x y l r H N P IH]; intros l' r' P'.
  - inversion P'; subst; auto; congruence.
  - inversion P'; subst; try congruence.
    assert (y0 = y) by congruence. subst.
    destruct (IH _ _ H2). subst. auto.
Qed.

Lemma Root_det : forall ps x r r', Root ps x r -> Root ps x r' -> r = r'.
Proof. intros ps x r r' [l H] [l' H']. eapply Path_det; eauto. Qed.

Lemma Path_root_self : forall ps x l r, Path ps x l r -> nth_error ps r = Some r.
Proof. induction 1; auto. Qed.

Lemma Root_self : forall ps x r, Root ps x r -> nth_error ps r = Some r.
Proof. intros ps x r [l H]. eapply Path_root_self; eauto. Qed.

Lemma Root_lt : forall ps x r, Root ps x r -> x < length ps /\ r < length ps.
Proof.
  intros ps x r H. split.
  - destruct H as [l H]. eapply Path_lt; eauto.
  - apply nth_error_Some. rewrite (Root_self _ _ _ H). discriminate.
Qed.

Lemma Root_of_root : forall ps r, nth_error ps r = Some r -> Root ps r r.
Proof. intros. exists [r]. constructor; auto. Qed.

Lemma Root_root_eq : forall ps x r, Root ps x r -> nth_error ps x = Some x -> x = r.
Proof. intros ps x r H E. eapply Root_det; [apply Root_of_root|]; eauto. Qed.

Lemma Path_in_lt : forall ps x l r, Path ps x l r -> forall z, In z l -> z < length ps.
Proof.
  induction 1 as [x H|x y l r H N P IH]; intros z Hz; simpl in Hz.
  - destruct Hz as [<-|[]]. apply nth_error_Some; congruence.
  - destruct Hz as [<-|Hz]; auto. apply nth_error_Some; congruence.
Qed.

Lemma Path_rank : forall ps rs, Forest ps rs ->
  forall x l r, Path ps x l r -> forall z, In z l -> nth x rs 0 <= nth z rs 0.
Proof.
  intros ps rs [_ F]. induction 1 as [x H|x y l r H N P IH]; intros z Hz; simpl in Hz.
  - destruct Hz as [<-|[]]; auto.
  - destruct Hz as [<-|Hz]; auto.
    destruct (F _ _ H) as [_ G]. specialize (G N). specialize (IH z Hz). lia.
Qed.

Lemma Path_NoDup : forall ps rs, Forest ps rs ->
  forall x l r, Path ps x l r -> NoDup l.
Proof.
  intros ps rs HF. induction 1 as [x H|x y l r H N P IH].
  - constructor; auto. constructor.
  - constructor; auto. intro Hin.
    pose proof (Path_rank _ _ HF _ _ _ P x Hin) as Hr.
    destruct HF as [_ F]. destruct (F _ _ H) as [_ G]. specialize (G N). lia.
Qed.

Lemma Path_length : forall ps rs, Forest ps rs ->
  forall x l r, Path ps x l r -> length l <= length ps.
Proof.
  intros ps rs HF x l r P. apply NoDup_bounded_length.
  - eapply Path_NoDup; eauto.
  - intros z Hz. eapply Path_in_lt; eauto.
Qed.

Lemma nth_le_max : forall (l : list nat) i, nth i l 0 <= list_max l.
Proof.
  induction l as [|h t IH]; intros [|i]; cbn [nth list_max fold_right]; try lia.
  specialize (IH i). unfold list_max in *. lia.
Qed.

Lemma Path_exists : forall ps rs, Forest ps rs ->
  forall x, x < length ps -> exists l r, Path ps x l r.
Proof.
  intros ps rs HF x Hx.
  remember (list_max rs - nth x rs 0) as k eqn:Hk.
  revert x Hx Hk. induction k as [k IH] using lt_wf_ind. intros x Hx Hk.
  destruct (nth_error_lt _ ps x Hx) as [y Hy].
  destruct (Nat.eq_dec x y) as [->|N].
  - exists [y], y. constructor; auto.
  - destruct HF as [HL F]. destruct (F _ _ Hy) as [Hlt G]. specialize (G N).
    pose proof (nth_le_max rs y).
    destruct (IH (list_max rs - nth y rs 0)) with (x := y) as [l [r P]]; auto; try lia.
    exists (x :: l), r. econstructor; eauto.
Qed.

Lemma Root_exists : forall ps rs, Forest ps rs ->
  forall x, x < length ps -> exists r, Root ps x r.
Proof.
  intros ps rs HF x Hx. destruct (Path_exists _ _ HF x Hx) as [l [r P]]. exists r, l. auto.
Qed.

Lemma find_root_path : forall ps x l r, Path ps x l r ->
  forall fuel, length l <= fuel -> find_root fuel ps x = Ret r.
Proof.
  induction 1 as [x H|x y l r H N P IH]; intros fuel Hf; destruct fuel as [|fuel];
    simpl in *; try lia.
  - rewrite (rd_Ret _ _ _ _ H). simpl. rewrite Nat.eqb_refl. reflexivity.
  - rewrite (rd_Ret _ _ _ _ H). simpl.
    destruct (Nat.eqb_spec y x); [congruence|]. apply IH. lia.
Qed.

Lemma find_root_Root : forall ps rs, Forest ps rs ->
  forall x r, Root ps x r -> find_root (part_fuel ps) ps x = Ret r.
Proof.
  intros ps rs HF x r [l P]. eapply find_root_path; eauto.
  unfold part_fuel. pose proof (Path_length _ _ HF _ _ _ P). lia.
Qed.

(** Re-pointing [x] at its root. *)
Lemma Path_upd_notin : forall ps y l r, Path ps y l r ->
  forall x v, ~ In x l -> Path (upd ps x v) y l r.
Proof.
  induction 1 as [y H|y z l r H N P IH]; intros x v Hn; simpl in Hn.
  - constructor. rewrite nth_error_upd_neq by (auto || congruence || tauto); auto.
  - econstructor; eauto. rewrite nth_error_upd_neq by (auto || congruence || tauto); auto.
Qed.

Lemma upd_root_Root : forall ps rs x root, Forest ps rs -> Root ps x root -> x <> root ->
  forall z s, Root (upd ps x root) z s <-> Root ps z s.
Proof.
  intros ps rs x root HF Hx Hne.
  assert (Hlt : x < length ps) by (apply Root_lt in Hx; tauto).
  assert (Hroot : nth_error (upd ps x root) root = Some root).
  { rewrite nth_error_upd_neq by (auto || congruence). eapply Root_self; eauto. }
  assert (Fwd : forall z l s, Path ps z l s -> Root (upd ps x root) z s).
  { induction 1 as [z H|z y l s H N P IH].
    - destruct (Nat.eq_dec x z) as [->|Nz].
      + exfalso. apply Hne. eapply Root_root_eq; eauto.
      + exists [z]. constructor. rewrite nth_error_upd_neq by (auto || congruence || tauto); auto.
    - destruct (Nat.eq_dec x z) as [->|Nz].
      + assert (s = root).
        { eapply Root_det; [|exact Hx]. exists (z :: l). econstructor; eauto. }
        subst s. exists [z; root]. apply Path_step with (y := root); auto.
        * apply nth_error_upd_eq; auto.
        * constructor; auto.
      + destruct IH as [l' P']. exists (z :: l'). apply Path_step with (y := y); auto.
        rewrite nth_error_upd_neq by (auto || congruence || tauto); auto. }
  intros z s. split.
  - intro H. assert (Hz : z < length ps).
    { apply Root_lt in H. rewrite length_upd in H. tauto. }
    destruct (Path_exists _ _ HF z Hz) as [l [t P]].
    pose proof (Fwd _ _ _ P) as H'.
    rewrite (Root_det _ _ _ _ H H'). exists l. auto.
  - intros [l P]. eapply Fwd; eauto.
Qed.

Lemma Root_rank : forall ps rs x r, Forest ps rs -> Root ps x r -> x <> r ->
  nth x rs 0 < nth r rs 0.
Proof.
  intros ps rs x r HF [l P] N. destruct HF as [HL F].
  revert N. induction P as [x H|x y l r H N P IH]; intro Nr; [congruence|].
  destruct (F _ _ H) as [_ G]. specialize (G N).
  destruct (Nat.eq_dec y r) as [->|Ny]; auto. specialize (IH Ny). lia.
Qed.

Lemma upd_root_Forest : forall ps rs x root, Forest ps rs -> Root ps x root -> x <> root ->
  Forest (upd ps x root) rs.
Proof.
  intros ps rs x root HF Hx Hne. pose proof (Root_rank _ _ _ _ HF Hx Hne) as Hrk.
  pose proof (Root_lt _ _ _ Hx) as [Hlx Hlr].
  destruct HF as [HL F]. split.
  - rewrite length_upd. auto.
  - rewrite length_upd. intros z y Hz. rewrite nth_error_upd in Hz by auto.
    destruct (Nat.eq_dec x z) as [->|N].
    + injection Hz as <-. auto.
    + apply F; auto.
Qed.

Lemma compress_spec : forall ps x l r, Path ps x l r ->
  forall rs fuel, Forest ps rs -> length l <= fuel ->
  exists ps', compress fuel ps x r = Ret ps' /\ length ps' = length ps /\ Forest ps' rs /\
    (forall z s, Root ps' z s <-> Root ps z s) /\
    (forall z, nth_error ps' z = Some z <-> nth_error ps z = Some z).
Proof.
  intros ps x l. revert ps x. induction l as [|a l IH]; intros ps x r P rs fuel HF Hf.
  - inversion P.
  - destruct fuel as [|fuel]; simpl in Hf; [lia|]. simpl.
    inversion P as [x' Hx E1 E2 E3|x' y l' r' Hx N P' E1 E2]; subst.
    + rewrite Nat.eqb_refl. exists ps. split; [reflexivity|]. split; [reflexivity|]. split; [exact HF|].
      split; intros; tauto.
    + assert (HRx : Root ps a r) by (exists (a :: l); auto).
      assert (Hne : a <> r).
      { intros ->. apply Path_NoDup with (rs := rs) in P; auto.
        inversion P; subst.
        assert (Hrl : nth_error ps r = Some r) by (eapply Root_self; eauto).
        congruence. }
      destruct (Nat.eqb_spec a r); [congruence|].
      pose proof (Path_lt _ _ _ _ P) as Hlt.
      rewrite (rd_Ret _ _ _ _ Hx). simpl. rewrite wr_Ret by auto. simpl.
      pose proof (Path_NoDup _ _ HF _ _ _ P) as Hnd. inversion Hnd as [|? ? Hnin Hnd']; subst.
      destruct (IH (upd ps a r) y r) with (rs := rs) (fuel := fuel) as [ps' [E [EL [EF [ER ES]]]]].
      * apply Path_upd_notin; auto.
      * apply upd_root_Forest; auto.
      * lia.
      * exists ps'. split; [exact E|]. rewrite length_upd in EL.
        split; [exact EL|]. split; [exact EF|]. split.
        -- intros z s. rewrite ER. eapply upd_root_Root; eauto.
        -- intro z. rewrite ES. rewrite nth_error_upd by auto.
           destruct (Nat.eq_dec a z) as [->|Nz]; [|tauto]. intuition congruence.
Qed.

(** Linking root [a] below root [b]. *)
Lemma link_Root : forall ps rs a b, Forest ps rs ->
  nth_error ps a = Some a -> nth_error ps b = Some b -> a <> b ->
  forall z s, Root (upd ps a b) z s <->
    exists t, Root ps z t /\ s = if Nat.eq_dec t a then b else t.
Proof.
  intros ps rs a b HF Ha Hb Hne.
  assert (Hla : a < length ps) by (apply nth_error_Some; congruence).
  assert (Hb' : nth_error (upd ps a b) b = Some b) by (rewrite nth_error_upd_neq by (auto || congruence || tauto); auto).
  assert (Ha' : nth_error (upd ps a b) a = Some b) by (apply nth_error_upd_eq; auto).
  assert (Fwd : forall z l t, Path ps z l t ->
            Root (upd ps a b) z (if Nat.eq_dec t a then b else t)).
  { induction 1 as [z H|z y l t H N P IH].
    - destruct (Nat.eq_dec z a) as [->|Nz].
      + exists [a; b]. apply Path_step with (y := b); auto. constructor; auto.
      + exists [z]. constructor. rewrite nth_error_upd_neq by (auto || congruence || tauto); auto.
    - destruct (Nat.eq_dec z a) as [->|Nz]; [congruence|].
      destruct IH as [l' P']. exists (z :: l'). apply Path_step with (y := y); auto.
      rewrite nth_error_upd_neq by (auto || congruence || tauto); auto. }
  intros z s. split.
  - intro H. assert (Hz : z < length ps).
    { apply Root_lt in H. rewrite length_upd in H. tauto. }
    destruct (Path_exists _ _ HF z Hz) as [l [t P]].
    exists t. split; [exists l; auto|].
    eapply Root_det; eauto.
  - intros [t [[l P] ->]]. eapply Fwd; eauto.
Qed.

Lemma link_Forest : forall ps rs rs' a b, Forest ps rs ->
  nth_error ps a = Some a -> nth_error ps b = Some b -> a <> b ->
  length rs' = length rs ->
  (forall x, x <> b -> nth x rs' 0 = nth x rs 0) ->
  nth b rs 0 <= nth b rs' 0 ->
  nth a rs 0 < nth b rs' 0 ->
  Forest (upd ps a b) rs'.
Proof.
  intros ps rs rs' a b [HL F] Ha Hb Hne HL' Hsame Hge Hlt.
  assert (Hla : a < length ps) by (apply nth_error_Some; congruence).
  assert (Hlb : b < length ps) by (apply nth_error_Some; congruence).
  split; rewrite length_upd; [congruence|].
  intros x y Hx. rewrite nth_error_upd in Hx by auto.
  destruct (Nat.eq_dec a x) as [->|N].
  - injection Hx as <-. split; auto. intros _. rewrite (Hsame x); auto.
  - destruct (F _ _ Hx) as [F1 F2]. split; auto. intro Nxy. specialize (F2 Nxy).
    destruct (Nat.eq_dec x b) as [->|Nx].
    + congruence.
    + rewrite (Hsame x) by auto.
      destruct (Nat.eq_dec y b) as [->|Ny]; [lia|]. rewrite (Hsame y); auto.
Qed.

(** * Connectivity *)

(** The relation generated by a list of merged pairs. *)
Definition connected (pairs : list (nat * nat)) : nat -> nat -> Prop :=
  clos_refl_sym_trans nat (fun a b => In (a, b) pairs).

Lemma connected_refl : forall ps x, connected ps x x.
Proof. intros. apply rst_refl. Qed.
Lemma connected_sym : forall ps x y, connected ps x y -> connected ps y x.
Proof. intros. apply rst_sym. auto. Qed.
Lemma connected_trans : forall ps x y z, connected ps x y -> connected ps y z -> connected ps x z.
Proof. intros. eapply rst_trans; eauto. Qed.

Lemma connected_mono : forall ps qs, incl ps qs ->
  forall x y, connected ps x y -> connected qs x y.
Proof.
  intros ps qs H x y C. induction C.
  - apply rst_step. apply H. auto.
  - apply rst_refl.
  - apply rst_sym. auto.
  - eapply rst_trans; eauto.
Qed.

Lemma connected_cons : forall ps a b x y,
  connected ((a, b) :: ps) x y <->
  connected ps x y \/ (connected ps x a /\ connected ps b y) \/ (connected ps x b /\ connected ps a y).
Proof.
  intros ps a b x y. split.
  - intro C. induction C as [x y H|x|x y C IH|x y z C1 IH1 C2 IH2].
    + destruct H as [E|H].
      * injection E as -> ->. right. left. split; apply connected_refl.
      * left. apply rst_step. auto.
    + left. apply connected_refl.
    + destruct IH as [H|[[H1 H2]|[H1 H2]]].
      * left. apply connected_sym; auto.
      * right. right. split; apply connected_sym; auto.
      * right. left. split; apply connected_sym; auto.
    + destruct IH1 as [H|[[H1 H2]|[H1 H2]]]; destruct IH2 as [G|[[G1 G2]|[G1 G2]]];
        try (left; eapply connected_trans; eauto; fail).
      * right. left. split; auto. eapply connected_trans; eauto.
      * right. right. split; auto. eapply connected_trans; eauto.
      * right. left. split; auto. eapply connected_trans; eauto.
      * right. left. split; auto.
      * right. right. split; auto. eapply connected_trans; eauto.
      * right. right. split; auto.
  - assert (Hab : connected ((a, b) :: ps) a b) by (apply rst_step; left; auto).
    assert (M : forall u v, connected ps u v -> connected ((a, b) :: ps) u v).
    { intros. eapply connected_mono; eauto. apply incl_tl. apply incl_refl. }
    intros [H|[[H1 H2]|[H1 H2]]].
    + auto.
    + eapply connected_trans; [apply M, H1|]. eapply connected_trans; [apply Hab|]. auto.
    + eapply connected_trans; [apply M, H1|].
      eapply connected_trans; [apply connected_sym, Hab|]. auto.
Qed.

Lemma connected_bound : forall ps n,
  (forall a b, In (a, b) ps -> a < n /\ b < n) ->
  forall x y, connected ps x y -> x = y \/ (x < n /\ y < n).
Proof.
  intros ps n H x y C. induction C as [x y HI|x|x y C IH|x y z C1 IH1 C2 IH2].
  - right. apply H. auto.
  - left. auto.
  - destruct IH as [->|[? ?]]; auto.
  - destruct IH1 as [->|[? ?]]; auto. destruct IH2 as [->|[? ?]]; auto.
Qed.

(** Same root means connected. *)
Definition Agrees (ps : list nat) (pairs : list (nat * nat)) : Prop :=
  forall x y r s, Root ps x r -> Root ps y s -> (r = s <-> connected pairs x y).

Lemma link_Agrees : forall ps rs pairs a b ra rb, Forest ps rs -> Agrees ps pairs ->
  Root ps a ra -> Root ps b rb -> ra <> rb ->
  Agrees (upd ps ra rb) ((a, b) :: pairs) /\ Agrees (upd ps rb ra) ((a, b) :: pairs).
Proof.
  intros ps rs pairs a b ra rb HF HA Ha Hb Hne.
  pose proof (Root_self _ _ _ Ha) as Hra. pose proof (Root_self _ _ _ Hb) as Hrb.
  assert (Key : forall x y tx ty, Root ps x tx -> Root ps y ty ->
     ((tx = ty \/ (tx = ra /\ ty = rb) \/ (tx = rb /\ ty = ra)) <->
      connected ((a, b) :: pairs) x y)).
  { intros x y tx ty Hx Hy. rewrite connected_cons.
    rewrite <- (HA x y tx ty), <- (HA x a tx ra), <- (HA b y rb ty),
            <- (HA x b tx rb), <- (HA a y ra ty) by auto.
    intuition congruence. }
  split; intros x y r s Hx Hy.
  - apply (link_Root _ rs) in Hx; auto. apply (link_Root _ rs) in Hy; auto.
    destruct Hx as [tx [Hx ->]], Hy as [ty [Hy ->]].
    rewrite <- (Key x y tx ty Hx Hy).
    destruct (Nat.eq_dec tx ra), (Nat.eq_dec ty ra); subst; intuition congruence.
  - apply (link_Root _ rs) in Hx; auto. apply (link_Root _ rs) in Hy; auto.
    destruct Hx as [tx [Hx ->]], Hy as [ty [Hy ->]].
    rewrite <- (Key x y tx ty Hx Hy).
    destruct (Nat.eq_dec tx rb), (Nat.eq_dec ty rb); subst; intuition congruence.
Qed.

Lemma same_Agrees : forall ps pairs a b r, Agrees ps pairs ->
  Root ps a r -> Root ps b r -> Agrees ps ((a, b) :: pairs).
Proof.
  intros ps pairs a b r HA Ha Hb x y tx ty Hx Hy.
  rewrite connected_cons.
  rewrite <- (HA x y tx ty), <- (HA x a tx r), <- (HA b y r ty),
            <- (HA x b tx r), <- (HA a y r ty) by auto.
  intuition congruence.
Qed.

(** * Counting roots *)

Definition is_root (ps : list nat) (x : nat) : bool :=
  match nth_error ps x with Some y => Nat.eqb y x | None => false end.

Lemma is_root_true : forall ps x, is_root ps x = true <-> nth_error ps x = Some x.
Proof.
  intros ps x. unfold is_root. destruct (nth_error ps x) as [y|].
  - rewrite Nat.eqb_eq. split; congruence.
  - split; discriminate.
Qed.

Definition roots (ps : list nat) : list nat := filter (is_root ps) (seq 0 (length ps)).
Arguments roots : simpl never.

Lemma roots_In : forall ps x, In x (roots ps) <-> nth_error ps x = Some x.
Proof.
  intros ps x. unfold roots. rewrite filter_In, is_root_true, in_seq.
  split; [tauto|]. intro H. split; auto. split; [lia|].
  apply nth_error_Some. congruence.
Qed.

Lemma roots_NoDup : forall ps, NoDup (roots ps).
Proof. intros. apply NoDup_filter, seq_NoDup. Qed.

Lemma roots_ext : forall ps qs, length ps = length qs ->
  (forall z, nth_error ps z = Some z <-> nth_error qs z = Some z) -> roots ps = roots qs.
Proof.
  intros ps qs HL H. unfold roots. rewrite HL. apply filter_ext.
  intro z. specialize (H z). rewrite <- !is_root_true in H.
  destruct (is_root ps z), (is_root qs z); intuition congruence.
Qed.

Lemma NoDup_same_length : forall (l l' : list nat), NoDup l -> NoDup l' ->
  (forall x, In x l <-> In x l') -> length l = length l'.
Proof.
  intros l l' H H' E. apply Nat.le_antisymm; apply NoDup_incl_length; auto;
    intros x Hx; apply E; auto.
Qed.

Lemma roots_link : forall ps a b, nth_error ps a = Some a -> nth_error ps b = Some b -> a <> b ->
  length (roots ps) = S (length (roots (upd ps a b))).
Proof.
  intros ps a b Ha Hb Hne.
  assert (Hla : a < length ps) by (apply nth_error_Some; congruence).
  change (S (length (roots (upd ps a b)))) with (length (a :: roots (upd ps a b))).
  apply NoDup_same_length.
  - apply roots_NoDup.
  - constructor; [|apply roots_NoDup]. rewrite roots_In, nth_error_upd_eq by auto. congruence.
  - intro x. simpl. rewrite !roots_In, nth_error_upd by auto.
    destruct (Nat.eq_dec a x) as [->|N]; intuition congruence.
Qed.
