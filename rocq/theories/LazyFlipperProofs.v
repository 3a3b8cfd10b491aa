(** Proofs about the lazy flipper: the loops. *)
From Verif Require Import Base Values GmView GmViewSpec ShapeSpec ShapeProofs GmProofs GmViewProofs
  MovemakerModel MovemakerSpec MovemakerProofs MovemakerSearch IcmModel IcmProofs LazyFlipperModel LazyFlipperForest LazyFlipperEnum LazyFlipperSets.
From Coq Require Import Sorted.
#[local] Arguments nth_error : simpl never.

(** ** Tags *)
Definition tagged (t : tagging) (v : nat) : Prop := nth v (tg_tags t) false = true.
Record tg_ok (n : nat) (t : tagging) : Prop := mkTgOk {
  tk_len : length (tg_tags t) = n;
  tk_idx : forall v, tagged t v -> In v (tg_indices t);
  tk_lt : Forall (fun v => v < n) (tg_indices t) }.
Definition no_tags (t : tagging) : Prop := forall v, ~ tagged t v.

Lemma tg_get_ok : forall n t v, tg_ok n t -> v < n -> tg_get t v = Ret (nth v (tg_tags t) false).
Proof. intros n t v H Hv. apply rd_nth. rewrite (tk_len _ _ H). auto. Qed.
Lemma tg_set_ok : forall n t v, tg_ok n t -> v < n -> exists t', tg_set t v = Ret t' /\ tg_ok n t' /\ forall u, tagged t' u <-> tagged t u \/ u = v.
Proof.
  intros n t v H Hv. unfold tg_set. destruct H as [H1 H2 H3]. rewrite (rd_nth _ _ v false) by lia. cbn [bind]. rewrite wr_Ret by lia. cbn [bind]. eexists. split; [reflexivity|].
  assert (TG : forall u, tagged (mkTagging (upd (tg_tags t) v true) (if nth v (tg_tags t) false then tg_indices t else tg_indices t ++ [v])) u <-> tagged t u \/ u = v).
  { intros u. unfold tagged. cbn [tg_tags]. destruct (Nat.eq_dec v u) as [<-|N].
    - rewrite nth_upd_eq by lia. tauto.
    - rewrite nth_upd_neq by auto. split; auto. intros [X|X]; [auto|congruence]. }
  split; auto. split; cbn [tg_tags tg_indices].
  - rewrite length_upd. auto.
  - intros u Hu. apply TG in Hu. destruct (nth v (tg_tags t) false) eqn:E.
    + destruct Hu as [Hu| ->]; auto.
    + apply in_app_iff. destruct Hu as [Hu| ->]; [left; auto|right; left; auto].
  - destruct (nth v (tg_tags t) false); auto. apply Forall_app. split; auto.
Qed.
Lemma tg_sets_ok : forall n vs t, tg_ok n t -> Forall (fun v => v < n) vs -> exists t', foldM tg_set vs t = Ret t' /\ tg_ok n t' /\ forall u, tagged t' u <-> tagged t u \/ In u vs.
Proof.
  intros n. induction vs as [|v vs IH]; intros t H HF.
  - exists t. split; auto. split; auto. cbn. intros. tauto.
  - apply Forall_cons_iff in HF. destruct HF as [Hv HF]. cbn [foldM]. destruct (tg_set_ok n t v H Hv) as (t1 & E1 & H1 & T1). rewrite E1. cbn [bind].
    destruct (IH t1 H1 HF) as (t2 & E2 & H2 & T2). exists t2. split; auto. split; auto. intros u. rewrite T2, T1. cbn. intuition.
Qed.
Lemma tg_untag_ok : forall n t, tg_ok n t -> exists t', tg_untag t = Ret t' /\ tg_ok n t' /\ no_tags t'.
Proof.
  intros n t [H1 H2 H3]. unfold tg_untag.
  assert (G : forall l tags, length tags = n -> Forall (fun v => v < n) l -> exists tags', foldM (fun tags i => wr tags i false) l tags = Ret tags' /\ length tags' = n /\
            forall v, nth v tags' false = true -> nth v tags false = true /\ ~ In v l).
  { induction l as [|a l IH]; intros tags HL HF; [exists tags; cbn; auto|]. apply Forall_cons_iff in HF. destruct HF as [Ha HF]. cbn [foldM]. rewrite wr_Ret by lia. cbn [bind].
    destruct (IH (upd tags a false)) as (tg & E & L & X); auto; [rewrite length_upd; auto|]. exists tg. split; auto. split; auto. intros v Hv. apply X in Hv. destruct Hv as [A B].
    destruct (Nat.eq_dec a v) as [<-|N]; [rewrite nth_upd_eq in A by lia; discriminate|]. rewrite nth_upd_neq in A by auto. split; auto. intros [Y|Y]; auto. }
  destruct (G (tg_indices t) (tg_tags t) H1 H3) as (tags & E & L & X). rewrite E. cbn [bind]. eexists. split; [reflexivity|].
  assert (NT : forall v, ~ tagged (mkTagging tags []) v) by (intros v Hv; apply X in Hv; destruct Hv as [A B]; auto).
  split; auto. split; cbn [tg_tags tg_indices]; [auto| |constructor]. intros v Hv. destruct (NT v Hv).
Qed.
Lemma tg_new_ok : forall n, tg_ok n (tg_append (mkTagging [] []) n) /\ no_tags (tg_append (mkTagging [] []) n).
Proof.
  intros n. assert (NT : no_tags (tg_append (mkTagging [] []) n)).
  { intros v Hv. unfold tagged in Hv. cbn in Hv. destruct (Nat.lt_ge_cases v n) as [X|X]; [|rewrite nth_overflow in Hv by (rewrite repeat_length; auto); discriminate].
    assert (Z : In (nth v (repeat false n) false) (repeat false n)) by (apply nth_In; rewrite repeat_length; auto). apply repeat_spec in Z. congruence. }
  split; auto. split; cbn [tg_tags tg_indices tg_append].
  - apply repeat_length.
  - intros v Hv. destruct (NT v Hv).
  - constructor.
Qed.

(** ** Walking through the forest in level order *)
Section W.
Variable n : nat.
Variable adj : list (list nat).
Hypothesis LA : length adj = n.
Notation nbr u w := (In w (nth u adj [])).
Hypothesis NB : forall u w, nbr u w -> w < n.
Notation wf := (wf n adj).

Definition nxt (f : forest) (q : nat) : option nat := match suc f q with Some s => Some s | None => nth_error (fo_anchors f) (S (lvl f q)) end.
Inductive lo (f : forest) : option nat -> list nat -> Prop :=
| lo_nil : lo f None []
| lo_cons : forall q l, q < size f -> lo f (nxt f q) l -> lo f (Some q) (q :: l).

Lemma lo_ex : forall f, wf f -> forall d q, (fo_levels f - lvl f q) * S (size f) + (size f - q) <= d -> q < size f -> exists l, lo f (Some q) l.
Proof.
  intros f WF. induction d as [|d IH]; intros q Hd Hq; [nia|].
  assert (H : exists l, lo f (nxt f q) l); [|destruct H as [l H]; exists (q :: l); constructor; auto].
  unfold nxt. destruct (suc f q) as [s|] eqn:E.
  - destruct (wf_succ _ _ f WF q s Hq E) as [Hs HL]. apply IH; [rewrite HL; lia|lia].
  - destruct (nth_error (fo_anchors f) (S (lvl f q))) as [a|] eqn:EA; [|exists []; constructor].
    destruct (wf_anchor _ _ f WF _ _ EA) as [Ha HL]. pose proof (wf_level _ _ f WF a Ha). apply IH; auto. rewrite HL in *.
    replace (fo_levels f - lvl f q) with (S (fo_levels f - S (lvl f q))) in Hd by lia. cbn [Nat.mul] in Hd. lia.
Qed.
Lemma lo_ex' : forall f q, wf f -> q < size f -> exists l, lo f (Some q) l.
Proof. intros. eapply lo_ex; eauto. Qed.
Lemma lo_size : forall f p l, lo f p l -> forall i, In i l -> i < size f.
Proof. intros f p l H. induction H as [|q l Hq H IH]; intros i Hi; [destruct Hi|]. destruct Hi as [<-|Hi]; auto. Qed.

Lemma lo_chain : forall f p C, chain f p C -> forall q k l, p = Some q -> wf f -> lvl f q = k -> lo f p l -> incl C l /\ exists l', lo f (nth_error (fo_anchors f) (S k)) l' /\ incl l' l.
Proof.
  intros f p C H. induction H as [|q C Hq H IH]; intros q' k l EQ WF HL HLO; [discriminate|]. injection EQ as <-. inversion HLO as [|q0 l0 Hq0 HN EQ0]; subst q0 l. unfold nxt in HN.
  destruct (suc f q) as [s|] eqn:E.
  - destruct (wf_succ _ _ f WF q s Hq E) as [Hs HLs]. destruct (IH s k l0 eq_refl WF ltac:(congruence) HN) as [A (l' & B & C')]. split.
    + intros i [<-|Hi]; [left; auto|right; auto].
    + exists l'. split; auto. intros i Hi. right. auto.
  - inversion H; subst. split; [intros i [<-|[]]; left; auto|]. exists l0. split; auto. intros i Hi. right. auto.
Qed.
Lemma lo_all : forall f L a l, wf f -> complete n adj f L -> nth_error (fo_anchors f) 0 = Some a -> lo f (Some a) l ->
  forall k b C, k < L -> nth_error (fo_anchors f) k = Some b -> chain f (Some b) C -> incl C l.
Proof.
  intros f L a l WF [HLV HC] EA HLO.
  assert (G : forall k, k < L -> exists l', lo f (nth_error (fo_anchors f) k) l' /\ incl l' l).
  { induction k as [|k IH]; intros Hk; [rewrite EA; exists l; split; [auto|apply incl_refl]|]. destruct IH as (l' & A & B); [lia|].
    destruct (HC k ltac:(lia)) as (b & C & E & HCH & _). rewrite E in A. destruct (wf_anchor _ _ f WF _ _ E) as [_ HL].
    destruct (lo_chain f (Some b) C HCH b k l' eq_refl WF HL A) as (_ & l2 & X & Y). exists l2. split; auto. intros i Hi. auto. }
  intros k b C Hk E HCH. destruct (G k Hk) as (l' & A & B). rewrite E in A. destruct (wf_anchor _ _ f WF _ _ E) as [_ HL].
  destruct (lo_chain f (Some b) C HCH b k l' eq_refl WF HL A) as [X _]. intros i Hi. auto.
Qed.

(** A path with a tagged variable. *)
Definition ptag (t : tagging) (P : list nat) : Prop := exists v, In v P /\ tagged t v.
Lemma path_active_ok : forall t f, tg_ok n t -> forall p P, path f p P -> Forall (fun v => v < n) P -> forall fuel, length P <= fuel ->
  exists b, path_active t fuel f p = Ret b /\ (b = true <-> ptag t P).
Proof.
  intros t f HT p P H. induction H as [|q P Hq H IH]; intros HF fuel Hf.
  - exists false. split; [destruct fuel; auto|]. split; [discriminate|]. intros (v & [] & _).
  - apply Forall_cons_iff in HF. destruct HF as [Hv HF]. cbn [length] in Hf. destruct fuel as [|fuel]; [lia|]. cbn [path_active]. unfold fo_value. rewrite rd_nd by auto. cbn [bind].
    rewrite (tg_get_ok n) by auto. cbn [bind]. destruct (nth (vl f q) (tg_tags t) false) eqn:E.
    + exists true. split; auto. split; auto. intros _. exists (vl f q). split; [left; auto|auto].
    + unfold fo_parent. rewrite rd_nd by auto. cbn [bind]. destruct (IH HF fuel ltac:(lia)) as (b & Eb & X). exists b. split; auto. rewrite X. split.
      * intros (v & A & B). exists v. split; [right; auto|auto].
      * intros (v & [<-|A] & B); [unfold tagged in B; congruence|]. exists v. auto.
Qed.
Definition ntag (t : tagging) (f : forest) (i : nat) : Prop := exists P, path f (Some i) P /\ ptag t P.
Lemma node_active_ok : forall t f i fuel, tg_ok n t -> wf f -> i < size f -> n <= fuel -> exists b, path_active t fuel f (Some i) = Ret b /\ (b = true <-> ntag t f i).
Proof.
  intros t f i fuel HT WF Hi Hf. destruct (path_ex n adj LA NB f WF i Hi) as (P & HP & _). destruct (path_facts n adj LA NB f i P WF HP) as (_ & LP & ND & FP & LN).
  destruct (path_active_ok t f HT (Some i) P HP FP fuel ltac:(lia)) as (b & E & X). exists b. split; auto. rewrite X. split.
  - intros Y. exists P. auto.
  - intros (Q & HQ & Y). rewrite (path_det _ _ _ _ HP HQ). auto.
Qed.

Lemma nextActive_ok : forall t f, tg_ok n t -> wf f -> forall l q, q < size f -> lo f (nxt f q) l -> forall fuel, n + length l < fuel ->
  (nextActivePath t fuel f q = Ret None /\ forall i, In i l -> ~ ntag t f i) \/
  exists l1 i l2, l = l1 ++ i :: l2 /\ nextActivePath t fuel f q = Ret (Some i) /\ (forall j, In j l1 -> ~ ntag t f j) /\ ntag t f i /\ lo f (Some i) (i :: l2).
Proof.
  intros t f HT WF. induction l as [|i l IH]; intros q Hq H fuel Hf; (destruct fuel as [|fuel]; [lia|]); cbn [nextActivePath]; unfold fo_succ; rewrite rd_nd by auto; cbn [bind].
  - left. split; [|intros i []]. unfold nxt in H. destruct (suc f q) as [s|] eqn:E; [inversion H|]. unfold fo_level. rewrite rd_nd by auto. cbn [bind].
    inversion H as [EA|]. destruct (Nat.ltb_spec (S (lvl f q)) (fo_levels f)); auto. symmetry in EA. apply nth_error_None in EA. unfold fo_levels in *. lia.
  - assert (EP : (p <- match suc f q with Some q => Ret (Some q) | None => l <- fo_level f q ;; if S l <? fo_levels f then q <- fo_levelAnchor f (S l) ;; Ret (Some q) else Ret None end ;; Ret p) = Ret (Some i)).
    { inversion H as [|q0 l0 Hq0 HN EQ EQ2]; subst. symmetry in EQ. unfold nxt in EQ. destruct (suc f q) as [s|]; [cbn [bind]; congruence|]. unfold fo_level. rewrite rd_nd by auto. cbn [bind].
      assert (S (lvl f q) < fo_levels f) by (apply nth_error_Some; congruence). destruct (Nat.ltb_spec (S (lvl f q)) (fo_levels f)); [|lia].
      unfold fo_levelAnchor. rewrite (rd_Ret _ _ _ _ EQ). auto. }
    assert (EQ : forall (k : option nat -> outcome (option nat)), bind (match suc f q with Some q => Ret (Some q) | None => l <- fo_level f q ;; if S l <? fo_levels f then q <- fo_levelAnchor f (S l) ;; Ret (Some q) else Ret None end) k = k (Some i)).
    { intros k. destruct (match suc f q with Some q => Ret (Some q) | None => l <- fo_level f q ;; if S l <? fo_levels f then q <- fo_levelAnchor f (S l) ;; Ret (Some q) else Ret None end) as [o| | |]; cbn [bind] in EP |- *; [injection EP as ->; reflexivity|discriminate..]. }
    rewrite EQ. inversion H as [|q0 l0 Hi HN EQ3 EQ2]; subst q0 l0.
    destruct (node_active_ok t f i (S fuel) HT WF Hi) as (b & Eb & X); [cbn [length] in Hf; lia|]. rewrite Eb. cbn [bind]. destruct b.
    + right. exists [], i, l. split; auto. split; auto. split; [intros j []|]. split; [apply X; auto|constructor; auto].
    + cbn [length] in Hf. destruct (IH i Hi HN fuel ltac:(lia)) as [[E N]|(l1 & j & l2 & E1 & E2 & A & B & C)].
      * left. split; auto. intros j [<-|Hj]; auto. intros Y. apply X in Y. discriminate.
      * right. exists (i :: l1), j, l2. split; [rewrite E1; auto|]. split; auto. split; auto. intros k [<-|Hk]; auto. intros Y. apply X in Y. discriminate.
Qed.

Lemma first_active_ok : forall t f, tg_ok n t -> wf f -> forall p C, chain f p C -> (forall i, In i C -> lvl f i = 0) -> forall l, lo f p l -> forall fuel, length C <= fuel ->
  (first_active t fuel f p = Ret None /\ forall i, In i C -> ~ ntag t f i) \/
  exists l1 i l2, l = l1 ++ i :: l2 /\ first_active t fuel f p = Ret (Some i) /\ (forall j, In j l1 -> ~ ntag t f j) /\ ntag t f i /\ lo f (Some i) (i :: l2).
Proof.
  intros t f HT WF p C H. induction H as [|q C Hq H IH]; intros HL l HLO fuel Hf.
  - left. split; [destruct fuel; auto|intros i []].
  - cbn [length] in Hf. destruct fuel as [|fuel]; [lia|]. cbn [first_active].
    assert (HL0 : lvl f q = 0) by (apply HL; left; auto). inversion HLO as [|q0 l0 Hq0 HN EQ0]; subst q0 l.
    assert (EPQ : par f q = None). { destruct (par f q) as [b|] eqn:E; auto. destruct (wf_child _ _ f WF q b Hq E) as (_ & X & _). lia. }
    assert (Hv : vl f q < n) by (apply (wf_root _ _ f WF q Hq EPQ)).
    unfold fo_value. rewrite rd_nd by auto. cbn [bind]. rewrite (tg_get_ok n) by auto. cbn [bind].
    assert (PQ : path f (Some q) [vl f q]) by (constructor; auto; rewrite EPQ; constructor).
    assert (NT : ntag t f q <-> nth (vl f q) (tg_tags t) false = true).
    { split.
      - intros (P & HP & v & A & B). rewrite (path_det _ _ _ _ HP PQ) in A. destruct A as [<-|[]]. auto.
      - intros X. exists [vl f q]. split; auto. exists (vl f q). split; [left; auto|auto]. }
    destruct (nth (vl f q) (tg_tags t) false) eqn:E.
    + right. exists [], q, l0. split; auto. split; auto. split; [intros j []|]. split; [apply NT; auto|constructor; auto].
    + unfold fo_succ. rewrite rd_nd by auto. cbn [bind]. assert (NQ : ~ ntag t f q) by (intros X; apply NT in X; discriminate).
      destruct (suc f q) as [s|] eqn:ES.
      * assert (HN' : lo f (Some s) l0) by (unfold nxt in HN; rewrite ES in HN; auto). destruct (IH ltac:(intros i Hi; apply HL; right; auto) l0 HN' fuel ltac:(lia)) as [[E1 N]|(l1 & j & l2 & E1 & E2 & A & B & C')].
        -- left. split; auto. intros i [<-|Hi]; auto.
        -- right. exists (q :: l1), j, l2. split; [rewrite E1; auto|]. split; auto. split; auto. intros k [<-|Hk]; auto.
      * inversion H as [EC|]. left. split; [destruct fuel; auto|]. intros i [<-|[]]. auto.
Qed.

(** activateInfluencedVariables. *)
Lemma activate_ok : forall t f q P fuel, tg_ok n t -> wf f -> path f (Some q) P -> n <= fuel ->
  exists t', activate adj fuel f q t = Ret t' /\ tg_ok n t' /\ forall u, tagged t' u <-> tagged t u \/ In u P \/ exists v, In v P /\ nbr v u.
Proof.
  intros t f q P fuel HT WF HP Hf. destruct (path_facts n adj LA NB f q P WF HP) as (_ & LP & ND & FP & LN). unfold activate.
  rewrite (walk_root_ok n adj LA f (Some q) P HP) by lia. cbn [bind]. clear HP LP ND LN Hf. revert t HT. induction P as [|v P IH]; intros t HT.
  - exists t. split; auto. split; auto. intros u. split; auto. intros [X|[[]|(v & [] & _)]]; auto.
  - apply Forall_cons_iff in FP. destruct FP as [Hv FP]. cbn [foldM]. destruct (tg_set_ok n t v HT Hv) as (t1 & E1 & H1 & T1). rewrite E1. cbn [bind].
    rewrite (rd_nth _ adj v []) by lia. cbn [bind]. destruct (tg_sets_ok n (nth v adj []) t1 H1) as (t2 & E2 & H2 & T2); [apply Forall_forall; intros; eapply NB; eauto|].
    rewrite E2. cbn [bind]. destruct (IH FP t2 H2) as (t3 & E3 & H3 & T3). exists t3. split; auto. split; auto. intros u. rewrite T3, T2, T1. cbn [In]. split.
    + intros [[[X|X]|X]|[X|(w & X & Y)]]; auto; right; right; [exists v|exists w]; auto.
    + intros [X|[[X|X]|(w & [<-|X] & Y)]]; auto. right. right. exists w. auto.
Qed.
End W.
