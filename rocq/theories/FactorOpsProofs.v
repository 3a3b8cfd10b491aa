(** Proofs about the operations on factors. *)
From Coq Require Import Sorted.
From Verif Require Import Base ShapeSpec ShapeProofs IndexingModel IndexingProofs UtilModel FunctionBaseProofs MarrayProofs GmProofs
  FactorOpsModel FactorOpsSpec.

(** * Labelings *)
Lemma override_in : forall vars c x, NoDup vars -> length c = length vars -> map (override x vars c) vars = c.
Proof.
  induction vars as [|v vars IH]; intros [|l c] x HN HL; try discriminate; auto. inversion HN; subst.
  cbn [map override]. rewrite Nat.eqb_refl. f_equal. transitivity (map (override x vars c) vars); [|apply IH; auto; cbn in HL; lia].
  apply map_ext_in. intros u Hu. destruct (Nat.eqb_spec u v) as [->|]; [contradiction|auto].
Qed.
Lemma override_out : forall vars c x v, ~ In v vars -> override x vars c v = x v.
Proof.
  induction vars as [|u vars IH]; intros [|l c] x v H; cbn [override]; auto.
  destruct (Nat.eqb_spec v u) as [->|]; [exfalso; apply H; left; auto|]. apply IH. intros K. apply H. right; auto.
Qed.
Lemma override_nth : forall vars c x i, NoDup vars -> length c = length vars -> i < length vars ->
  override x vars c (nth i vars 0) = nth i c 0.
Proof.
  intros vars c x i HN HL Hi. rewrite <- (override_in vars c x HN HL) at 2.
  rewrite (nth_indep (map (override x vars c) vars) 0 (override x vars c 0)) by (rewrite map_length; auto).
  rewrite map_nth. auto.
Qed.
Lemma map_in_shape : forall nl vars x, legal nl vars x -> in_shape (map nl vars) (map x vars).
Proof.
  intros nl vars x. induction vars as [|v vars IH]; intros H; cbn; constructor.
  - apply H. left; auto.
  - apply IH. intros u Hu. apply H. right; auto.
Qed.
Lemma override_legal : forall nl vars c x, NoDup vars -> in_shape (map nl vars) c -> legal nl vars (override x vars c).
Proof.
  intros nl vars. induction vars as [|v vars IH]; intros c x HN HI u Hu; [destruct Hu|].
  inversion HI as [|a b c' sh Ha HI' E1 E2]; subst. inversion HN; subst. cbn [override].
  destruct (Nat.eqb_spec u v) as [->|Hne]; auto. destruct Hu as [->|Hu]; [contradiction|]. apply IH; auto.
Qed.
Lemma map_positive : forall (nl : nat -> nat) vars, (forall v, In v vars -> 0 < nl v) -> positive (map nl vars).
Proof. intros. apply Forall_forall. intros s Hs. apply in_map_iff in Hs. destruct Hs as [v [<- Hv]]. auto. Qed.

(** the labeling of the k-th tuple *)
Definition lab (nl : nat -> nat) (vars : list nat) (k : nat) : nat -> nat :=
  override (fun _ => 0) vars (coord_of (map nl vars) k).
Lemma map_lab : forall nl vars k, NoDup vars -> map (lab nl vars k) vars = coord_of (map nl vars) k.
Proof. intros. apply override_in; auto. rewrite coord_of_length, map_length. auto. Qed.
Lemma lab_legal : forall nl vars k, NoDup vars -> (forall v, In v vars -> 0 < nl v) -> legal nl vars (lab nl vars k).
Proof. intros. apply override_legal; auto. apply coord_of_in_shape. apply map_positive; auto. Qed.
Lemma legal_incl : forall nl u w x, incl u w -> legal nl w x -> legal nl u x.
Proof. intros nl u w x H L v Hv. apply L. apply H. auto. Qed.

Lemma map_eq_in : forall (A B : Type) (f g : A -> B) l, map f l = map g l -> forall v, In v l -> f v = g v.
Proof.
  intros A B f g l. induction l as [|a l IH]; intros H v Hv; [destruct Hv|].
  injection H as H1 H2. destruct Hv as [->|Hv]; auto.
Qed.

(** a projection of a joint tuple is the tuple of the same labeling *)
Lemma projection_labels : forall viAB viA x cA, projection viAB viA (map x viAB) cA -> incl viA viAB -> cA = map x viA.
Proof.
  intros viAB viA x cA [L P] HI. apply nth_ext with (d := 0) (d' := x 0).
  - rewrite map_length. auto.
  - intros i Hi. rewrite map_nth. rewrite L in Hi.
    destruct (In_nth viAB (nth i viA 0) 0) as [d [Hd E]]. { apply HI. apply nth_In. auto. }
    rewrite (P i d) by auto. rewrite (nth_indep (map x viAB) 0 (x 0)) by (rewrite map_length; auto).
    rewrite map_nth, E. auto.
Qed.

(** * Merging the variables *)
Lemma sorted_last_ge : forall l v, StronglySorted lt l -> In v l -> v <= last l 0.
Proof.
  intros l v HS. revert v. induction HS as [|a l HS IH HF]; intros v Hv; [destruct Hv|].
  destruct l as [|b l]; [destruct Hv as [->|[]]; cbn; lia|]. change (last (a :: b :: l) 0) with (last (b :: l) 0).
  destruct Hv as [->|Hv]; [|apply IH; auto]. assert (b <= last (b :: l) 0) by (apply IH; left; auto).
  apply Forall_cons_iff in HF. destruct HF. lia.
Qed.
Lemma last_In : forall (l : list nat), l <> [] -> In (last l 0) l.
Proof.
  induction l as [|a l IH]; intros H; [contradiction|]. destruct l; [left; auto|]. right. apply IH. discriminate.
Qed.
Lemma push_spec : forall (nl : nat -> nat) vic v, StronglySorted lt vic -> vic <> [] -> last vic 0 <= v ->
  exists vic', push_unless_back vic (map nl vic) v (nl v) = (vic', map nl vic') /\ StronglySorted lt vic' /\ vic' <> [] /\
    last vic' 0 = v /\ forall u, In u vic' <-> In u vic \/ u = v.
Proof.
  intros nl vic v HS HN HL. unfold push_unless_back. destruct (Nat.eqb_spec (last vic 0) v) as [E|E].
  - exists vic. split; auto. split; auto. split; auto. split; auto. intros u. split; auto. intros [H|H]; auto.
    subst u v. apply last_In. auto.
  - exists (vic ++ [v]). split. { rewrite map_app. auto. } split.
    { apply sorted_snoc; auto. apply Forall_forall. intros u Hu. pose proof (sorted_last_ge _ _ HS Hu). lia. }
    split. { destruct vic; discriminate. } split. { apply last_last. }
    intros u. rewrite in_app_iff. cbn. intuition.
Qed.

Lemma merge_loop_spec : forall (nl : nat -> nat) fuel pa ra pb rb vic,
  length ra + length rb <= fuel -> StronglySorted lt (pa ++ ra) -> StronglySorted lt (pb ++ rb) ->
  StronglySorted lt vic -> vic <> [] -> (forall u, In u ra -> last vic 0 <= u) -> (forall u, In u rb -> last vic 0 <= u) ->
  exists vic', merge_loop fuel (pa ++ ra) (pb ++ rb) (map nl (pa ++ ra)) (map nl (pb ++ rb)) (length pa) (length pb) false vic (map nl vic)
     = Ret (vic', map nl vic') /\ StronglySorted lt vic' /\ forall u, In u vic' <-> In u vic \/ In u ra \/ In u rb.
Proof.
  intros nl fuel. induction fuel as [|fuel IH]; intros pa ra pb rb vic HF SA SB SV NV GA GB.
  { destruct ra; [|cbn in HF; lia]. destruct rb; [|cbn in HF; lia]. exists vic. cbn [merge_loop]. rewrite !app_nil_r.
    rewrite (proj2 (Nat.ltb_ge _ _)) by lia. rewrite (proj2 (Nat.ltb_ge _ _)) by lia. cbn [orb]. split; auto. split; auto.
    intros u. cbn. intuition. }
  assert (SAr : forall p x r, StronglySorted lt (p ++ x :: r) -> forall u, In u r -> x <= u).
  { intros p x r H u Hu. assert (K : StronglySorted lt (x :: r)).
    { clear - H. induction p; cbn in H; auto. inversion H; auto. }
    inversion K; subst. rewrite Forall_forall in *. apply Nat.lt_le_incl. auto. }
  assert (stepA : forall x ra', ra = x :: ra' -> (forall u, In u rb -> x <= u) -> exists vic1,
      push_unless_back vic (map nl vic) x (nl x) = (vic1, map nl vic1) /\
      exists vic', merge_loop fuel (pa ++ ra) (pb ++ rb) (map nl (pa ++ ra)) (map nl (pb ++ rb)) (S (length pa)) (length pb) false vic1 (map nl vic1)
       = Ret (vic', map nl vic') /\ StronglySorted lt vic' /\ forall u, In u vic' <-> In u vic \/ In u ra \/ In u rb).
  { intros x ra' -> Hx. destruct (push_spec nl vic x) as (vic1 & E1 & S1 & N1 & L1 & I1); auto. { apply GA. left; auto. }
    exists vic1. split; auto. destruct (IH (pa ++ [x]) ra' pb rb vic1) as (vic' & E' & S' & I'); auto.
    { cbn in HF. lia. } { rewrite <- app_assoc. auto. }
    { rewrite L1. eapply SAr; eauto. } { rewrite L1. auto. }
    exists vic'. rewrite <- app_assoc in E'. cbn [app] in E'. rewrite app_length, Nat.add_1_r in E'. split; auto. split; auto.
    intros u. rewrite I', I1. cbn. intuition. }
  assert (stepB : forall x rb', rb = x :: rb' -> (forall u, In u ra -> x <= u) -> exists vic1,
      push_unless_back vic (map nl vic) x (nl x) = (vic1, map nl vic1) /\
      exists vic', merge_loop fuel (pa ++ ra) (pb ++ rb) (map nl (pa ++ ra)) (map nl (pb ++ rb)) (length pa) (S (length pb)) false vic1 (map nl vic1)
       = Ret (vic', map nl vic') /\ StronglySorted lt vic' /\ forall u, In u vic' <-> In u vic \/ In u ra \/ In u rb).
  { intros x rb' -> Hx. destruct (push_spec nl vic x) as (vic1 & E1 & S1 & N1 & L1 & I1); auto. { apply GB. left; auto. }
    exists vic1. split; auto. destruct (IH pa ra (pb ++ [x]) rb' vic1) as (vic' & E' & S' & I'); auto.
    { cbn in HF. lia. } { rewrite <- app_assoc. auto. }
    { rewrite L1. auto. } { rewrite L1. eapply SAr; eauto. }
    exists vic'. rewrite <- app_assoc in E'. cbn [app] in E'. rewrite app_length, Nat.add_1_r in E'. split; auto. split; auto.
    intros u. rewrite I', I1. cbn. intuition. }
  assert (RA : forall (p : list nat) x r, rd (p ++ x :: r) (length p) = Ret x) by (intros; apply rd_app_mid; auto).
  assert (RM : forall p x r, rd (map nl (p ++ x :: r)) (length p) = Ret (nl x)).
  { intros. rewrite map_app. cbn [map]. apply rd_app_mid. rewrite map_length. auto. }
  cbn [merge_loop]. rewrite !app_length.
  destruct ra as [|x ra]; destruct rb as [|y rb]; cbn [length].
  - exists vic. rewrite (proj2 (Nat.ltb_ge _ _)) by lia. rewrite (proj2 (Nat.ltb_ge _ _)) by lia. cbn [orb]. split; auto. split; auto.
    intros u. cbn. intuition.
  - rewrite (proj2 (Nat.ltb_lt (length pb) _)) by lia. rewrite Bool.orb_true_r. rewrite (proj2 (Nat.leb_le _ (length pa))) by lia.
    rewrite RA, RM. cbn [bind]. destruct (stepB y rb) as (vic1 & E1 & H); auto. { intros u []. } rewrite E1. auto.
  - rewrite (proj2 (Nat.ltb_lt (length pa) _)) by lia. cbn [orb]. rewrite (proj2 (Nat.leb_gt _ (length pa))) by lia.
    rewrite (proj2 (Nat.leb_le _ (length pb))) by lia.
    rewrite RA, RM. cbn [bind]. destruct (stepA x ra) as (vic1 & E1 & H); auto. { intros u []. } rewrite E1. auto.
  - rewrite (proj2 (Nat.ltb_lt (length pa) _)) by lia. cbn [orb]. rewrite (proj2 (Nat.leb_gt _ (length pa))) by lia.
    rewrite (proj2 (Nat.leb_gt _ (length pb))) by lia. rewrite !RA. cbn [bind].
    pose proof (SAr _ _ _ SA) as XA. pose proof (SAr _ _ _ SB) as XB.
    destruct (Nat.leb_spec x y) as [L|L]; rewrite RM; cbn [bind].
    + destruct (stepA x ra) as (vic1 & E1 & H); auto. { intros u [<-|Hu]; auto. apply XB in Hu. lia. } rewrite E1. auto.
    + destruct (stepB y rb) as (vic1 & E1 & H); auto. { intros u [<-|Hu]; [lia|]. apply XA in Hu. lia. } rewrite E1. auto.
Qed.

Lemma mapM_rd_all : forall (l : list nat), mapM (rd l) (seq 0 (length l)) = Ret l.
Proof.
  intros l. rewrite (mapM_Ret _ _ (rd l) (fun i => nth i l 0)).
  - f_equal. apply nth_ext with (d := 0) (d' := 0); [rewrite map_length, seq_length; auto|].
    rewrite map_length, seq_length. intros i Hi. rewrite nth_indep with (d' := nth 0 l 0) by (rewrite map_length, seq_length; auto).
    rewrite map_nth with (f := fun i => nth i l 0), seq_nth; auto.
  - intros i Hi. apply in_seq in Hi. apply rd_nth. lia.
Qed.

Lemma compute_spec : forall (nl : nat -> nat) va vb, StronglySorted lt va -> StronglySorted lt vb ->
  exists vic, computeViandShape va vb (map nl va) (map nl vb) = Ret (vic, map nl vic) /\ StronglySorted lt vic /\
    forall u, In u vic <-> In u va \/ In u vb.
Proof.
  intros nl va vb SA SB. unfold computeViandShape. destruct va as [|x va]; destruct vb as [|y vb].
  - exists []. split; auto. split; [constructor|]. cbn. tauto.
  - exists (y :: vb). rewrite <- (map_length nl (y :: vb)), mapM_rd_all. cbn [bind]. split; auto. split; auto. cbn. tauto.
  - exists (x :: va). rewrite <- (map_length nl (x :: va)), mapM_rd_all. cbn [bind]. split; auto. split; auto. cbn. tauto.
  - cbn [length Nat.add merge_loop]. rewrite (proj2 (Nat.ltb_lt 0 _)) by lia. cbn [orb].
    change (rd (x :: va) 0) with (Ret x). change (rd (y :: vb) 0) with (Ret y). cbn [bind].
    change (rd (map nl (x :: va)) 0) with (Ret (nl x)). change (rd (map nl (y :: vb)) 0) with (Ret (nl y)). cbn [bind app].
    destruct (Nat.leb_spec x y) as [L|L].
    + destruct (merge_loop_spec nl (length va + S (length vb)) [x] va [] (y :: vb) [x]) as (vic & E & S & I); auto.
      { repeat constructor. } { discriminate. }
      { cbn [last]. inversion SA; subst. intros u Hu. rewrite Forall_forall in *. apply Nat.lt_le_incl; auto. }
      { cbn [last]. intros u [<-|Hu]; auto. inversion SB; subst. rewrite Forall_forall in *. apply H2 in Hu. lia. }
      exists vic. split; [exact E|]. split; auto. intros u. rewrite I. cbn. tauto.
    + destruct (merge_loop_spec nl (length va + S (length vb)) [] (x :: va) [y] vb [y]) as (vic & E & S & I); auto.
      { cbn [length]. lia. } { repeat constructor. } { discriminate. }
      { cbn [last]. intros u [<-|Hu]; [lia|]. inversion SA; subst. rewrite Forall_forall in *. apply H2 in Hu. lia. }
      { cbn [last]. inversion SB; subst. intros u Hu. rewrite Forall_forall in *. apply Nat.lt_le_incl; auto. }
      exists vic. split; [exact E|]. split; auto. intros u. rewrite I. cbn. tauto.
Qed.
