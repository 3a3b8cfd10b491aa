(** Proofs about FactorGraph::isAcyclic: the search visits a forest iff the graph has no cycle. *)
From Coq Require Import Sorted Permutation Relations.
From Verif Require Import Base FactorGraphModel FactorGraphSpec FactorGraphProofs.
#[local] Arguments nth_error : simpl never.

(** ** Paths and cycles *)
Section Paths.
Variable A : Type.
Variable dec : forall a b : A, {a = b} + {a <> b}.
Variable R : A -> A -> Prop.

Lemma path_app_inv : forall l1 l2, path R (l1 ++ l2) -> path R l1 /\ path R l2.
Proof.
  induction l1 as [|x l1 IH]; intros l2 H; [split; [exact I|exact H]|].
  destruct l1 as [|y l1]. { split; [exact I|]. cbn [app] in H. destruct l2; [exact I|]. destruct H. auto. }
  destruct H as [H1 H2]. apply IH in H2. destruct H2. split; auto. split; auto.
Qed.
Lemma path_mid : forall l1 x y l2, path R (l1 ++ x :: y :: l2) -> R x y.
Proof. intros l1 x y l2 H. apply path_app_inv in H. destruct H as [_ [H _]]. auto. Qed.
Lemma last_cons : forall (l : list A) x d, last (x :: l) d = last l x.
Proof. induction l as [|y l IH]; intros x d; auto. change (last (x :: y :: l) d) with (last (y :: l) d). rewrite !IH. auto. Qed.
Lemma last_app_one : forall (l : list A) x d, last (l ++ [x]) d = x.
Proof. intros. apply last_last. Qed.

(** Loop erasure. *)
Lemma simple_path : (forall a b, R a b -> R b a) -> forall x y, clos_refl_sym_trans A R x y ->
  exists l, NoDup (x :: l) /\ path R (x :: l) /\ last l x = y.
Proof.
  intros Sym x y H. assert (C : clos_refl_trans_1n A R x y).
  { apply clos_rst_rst1n in H. induction H as [|x z y [H|H] _ IH]; [constructor| |].
    - eapply Relation_Operators.rt1n_trans; eauto. - eapply Relation_Operators.rt1n_trans; eauto. }
  clear H. induction C as [x|x z y H _ IH].
  - exists []. split; [constructor; [intros []|constructor]|]. split; [exact I|auto].
  - destruct IH as [l [ND [P L]]]. destruct (in_dec dec x (z :: l)) as [I|N].
    + apply in_split in I. destruct I as [l1 [l2 E]]. exists l2. rewrite E in ND, P. split.
      * clear -ND. induction l1; auto. apply IHl1. inversion ND; auto.
      * split; [apply path_app_inv in P; tauto|]. rewrite <- L. rewrite <- (last_cons l z z), E. clear. induction l1 as [|w l1 IH]; cbn [app].
        -- rewrite last_cons. auto. -- rewrite last_cons. rewrite IH. clear. destruct l1; cbn [app]; rewrite !last_cons; auto.
    + exists (z :: l). split; [constructor; auto|]. split; [split; auto|]. rewrite last_cons. auto.
Qed.
End Paths.

Lemma path_incl : forall A (R S : A -> A -> Prop) l, (forall a b, R a b -> S a b) -> path R l -> path S l.
Proof. intros A R S l H. induction l as [|x [|y l] IH]; intros P; auto. destruct P as [P1 P2]. split; [auto|apply IH; auto]. Qed.

(** An edge between two nodes that are connected without it closes a cycle. *)
Lemma closing_edge : forall A (dec : forall a b : A, {a = b} + {a <> b}) (R S : A -> A -> Prop),
  (forall a b, R a b -> R b a) -> (forall a b, R a b -> S a b) -> forall x y,
  clos_refl_sym_trans A R x y -> x <> y -> ~ R x y -> S y x -> exists l, cycle S l.
Proof.
  intros A dec R S Sym Sub x y C N NR Sx. destruct (simple_path A dec R Sym x y C) as [l [ND [P L]]].
  exists (x :: l). split; auto. split.
  - destruct l as [|a l]. { cbn in L. congruence. } destruct l as [|b l]; [|cbn [length]; lia]. cbn in L. subst. destruct P. tauto.
  - split; [eapply path_incl; eauto|]. intros a t E. injection E as <- <-. rewrite L. auto.
Qed.

(** Every node of a cycle has two different neighbours in the cycle. *)
Lemma cycle_two : forall A (R : A -> A -> Prop) l x, (forall a b, R a b -> R b a) -> cycle R l -> In x l ->
  exists a b, a <> b /\ In a l /\ In b l /\ a <> x /\ b <> x /\ R x a /\ R x b.
Proof.
  intros A R l x Sym [ND [L [P C]]] Hx. apply in_split in Hx. destruct Hx as [l1 [l2 E]].
  destruct l2 as [|b l2].
  - (* x is last *)
    destruct l1 as [|a l1]; [subst; cbn in L; lia|]. destruct (exists_last (l := l1)) as [l0 [z E1]]. { intros ->. subst. cbn in L. lia. }
    subst l1. subst l. exists a, z. cbn [app] in *. rewrite <- app_assoc in *. cbn [app] in *.
    assert (N1 : ~ In a (l0 ++ [z; x])) by (inversion ND; auto). assert (N2 : NoDup (l0 ++ [z; x])) by (inversion ND; auto).
    apply NoDup_remove_2 in N2 as N3. repeat split.
    + intros ->. apply N1. apply in_app_iff. right. left. auto.
    + left; auto.
    + right. apply in_app_iff. right. left. auto.
    + intros ->. apply N1. apply in_app_iff. right. right. left. auto.
    + intros ->. apply N3. apply in_app_iff. right. left. auto.
    + specialize (C a (l0 ++ [z; x]) eq_refl). replace (l0 ++ [z; x]) with ((l0 ++ [z]) ++ [x]) in C by (rewrite <- app_assoc; auto). rewrite last_last in C. auto.
    + apply Sym. apply (path_mid _ R (a :: l0) z x []). cbn [app]. auto.
  - destruct l1 as [|a0 l1'] eqn:E1.
    + (* x is first *)
      cbn [app] in E. subst l. destruct (exists_last (l := l2)) as [l0 [z E2]]. { intros ->. cbn in L. lia. } subst l2.
      assert (N1 : ~ In x (b :: l0 ++ [z])) by (inversion ND; auto). assert (N2 : ~ In b (l0 ++ [z])) by (inversion ND as [|? ? ? X]; inversion X; auto).
      exists b, z. repeat split.
      * intros ->. apply N2. apply in_app_iff. right. left. auto.
      * right. left. auto.
      * right. right. apply in_app_iff. right. left. auto.
      * intros ->. apply N1. left. auto.
      * intros ->. apply N1. right. apply in_app_iff. right. left. auto.
      * destruct P. auto.
      * apply Sym. specialize (C x (b :: l0 ++ [z]) eq_refl). change (b :: l0 ++ [z]) with ((b :: l0) ++ [z]) in C. rewrite last_last in C. auto.
    + destruct (exists_last (l := a0 :: l1')) as [l0 [z E2]]; [discriminate|]. rewrite E2 in E. clear E1 E2 a0 l1'. subst l. clear L C. rewrite <- app_assoc in *. cbn [app] in *.
      assert (N1 : ~ In z (l0 ++ x :: b :: l2)) by (apply NoDup_remove_2 in ND; auto).
      exists z, b. repeat split.
      * intros ->. apply N1. apply in_app_iff. right. right. left. auto.
      * apply in_app_iff. right. left. auto.
      * apply in_app_iff. right. right. right. left. auto.
      * intros ->. apply N1. apply in_app_iff. right. left. auto.
      * intros ->. replace (l0 ++ z :: x :: x :: l2) with ((l0 ++ [z]) ++ x :: x :: l2) in ND by (rewrite <- app_assoc; auto).
        apply NoDup_remove_2 in ND. apply ND. apply in_app_iff. right. left. auto.
      * apply Sym. apply (path_mid _ R l0 z x (b :: l2)). auto.
      * apply (path_mid _ R (l0 ++ [z]) x b l2). rewrite <- app_assoc. auto.
Qed.

(** ** The search, on an arbitrary graph *)
Definition node_dec : forall a b : node, {a = b} + {a <> b}.
Proof. decide equality; apply Nat.eq_dec. Defined.

Inductive status := Undisc | Root | Child (x : node).

Section Search.
Variable adj : node -> node -> Prop.
Hypothesis adj_sym : forall a b, adj a b -> adj b a.
Hypothesis adj_irrefl : forall a, ~ adj a a.

(** P: processed, D: discovered (newest first), W: waiting, E: fathers set by the node in work. *)
Record Inv (root : node) (st : node -> status) (P D W : list node) (E : node -> node -> Prop) : Prop := {
  i_disc : NoDup D /\ forall y, st y <> Undisc <-> In y D;
  i_order : forall l y r, D = l ++ y :: r -> st y = Root \/ exists z, st y = Child z /\ In z r /\ adj z y;
  i_proc : forall z y, In z P -> adj z y -> In y D /\ (st z = Child y \/ st y = Child z);
  i_father : forall y z, st y = Child z -> In z P \/ E z y;
  i_part : NoDup (P ++ W) /\ forall y, In y D <-> In y (P ++ W);
  i_conn : forall y, In y W -> clos_refl_sym_trans node (fun a b => st a = Child b \/ st b = Child a) root y }.

Definition noE : node -> node -> Prop := fun _ _ => False.

Lemma conn_mono : forall (st st' : node -> status) a b, (forall z, st z <> Undisc -> st' z = st z) ->
  clos_refl_sym_trans node (fun a b => st a = Child b \/ st b = Child a) a b ->
  clos_refl_sym_trans node (fun a b => st' a = Child b \/ st' b = Child a) a b.
Proof.
  clear. intros st st' a b H C. induction C as [a b H0|a|a b _ IH|a b c _ IH1 _ IH2].
  - apply rst_step. destruct H0 as [H0|H0]; [left|right]; rewrite H; auto; congruence.
  - apply rst_refl. - apply rst_sym; auto. - eapply rst_trans; eauto.
Qed.

Lemma inv_new : forall root st P D x W E (E' : node -> node -> Prop) y st', Inv root st P D (x :: W) E -> adj x y -> st y = Undisc ->
  (forall z, st' z = if node_dec z y then Child x else st z) ->
  (forall a b, E a b -> E' a b) -> E' x y -> Inv root st' P (y :: D) ((x :: W) ++ [y]) E'.
Proof.
  intros root st P D x W E E' y st' [[I1a I1b] I2 I3 I4 [I5a I5b] I6] Axy Uy Hst HE HE1.
  assert (Ny : ~ In y D). { intro H. apply I1b in H. congruence. }
  assert (Dx : In x D). { apply I5b. apply in_app_iff. right. left. auto. }
  assert (Eq : forall z, z <> y -> st' z = st z). { intros z Hz. rewrite Hst. destruct (node_dec z y); congruence. }
  assert (Eq0 : forall z, In z D -> st' z = st z). { intros z Hz. apply Eq. intros ->. auto. }
  assert (Ey : st' y = Child x). { rewrite Hst. destruct (node_dec y y); congruence. }
  split.
  - split; [constructor; auto|]. intros z. destruct (node_dec z y) as [->|N].
    + rewrite Ey. split; [left; auto|discriminate].
    + rewrite Eq by auto. rewrite I1b. split; [right; auto|]. intros [H|H]; [congruence|auto].
  - intros l z r E0. destruct l as [|a l].
    + injection E0 as <- <-. right. exists x. split; [auto|]. split; auto.
    + injection E0 as <- E0. assert (Hz : In z D) by (rewrite E0; apply in_app_iff; right; left; auto).
      destruct (I2 l z r E0) as [H|[w [H1 [H2 H3]]]]; [left; rewrite Eq0; auto|right; exists w; rewrite Eq0; auto].
  - intros z w Hz Azw. destruct (I3 z w Hz Azw) as [H1 H2]. split; [right; auto|].
    assert (In z D) by (apply I5b; apply in_app_iff; left; auto). rewrite !Eq0 by auto. auto.
  - intros z w Hz. destruct (node_dec z y) as [->|N].
    + rewrite Ey in Hz. injection Hz as <-. right. auto.
    + rewrite Eq in Hz by auto. apply I4 in Hz. destruct Hz; auto.
  - rewrite app_assoc. split.
    + apply NoDup_app_intro; auto. { constructor; [intros []|constructor]. } intros z Hz [H|[]]. subst z. apply Ny. apply I5b. auto.
    + intros z. rewrite in_app_iff, <- I5b. cbn [In]. tauto.
  - intros z Hz. apply in_app_iff in Hz. assert (C : In z (x :: W) -> clos_refl_sym_trans node (fun a b => st' a = Child b \/ st' b = Child a) root z).
    { intros H. apply (conn_mono st); auto. intros w Hw. apply Eq0. apply I1b. auto. }
    destruct Hz as [Hz|[Hz|[]]]; auto. subst z. apply (rst_trans _ _ _ x).
    + apply (conn_mono st); [|apply I6; left; auto]. intros w Hw. apply Eq0. apply I1b. auto.
    + apply rst_step. right. auto.
Qed.

Lemma inv_weaken : forall root st P D W (E E' : node -> node -> Prop), Inv root st P D W E -> (forall a b, E a b -> E' a b) -> Inv root st P D W E'.
Proof. intros root st P D W E E' [I1 I2 I3 I4 I5 I6] H. split; auto. intros y z Hy. destruct (I4 y z Hy); auto. Qed.

Lemma inv_finish : forall root st P D x W E, Inv root st P D (x :: W) E -> (forall z y, E z y -> z = x) ->
  (forall y, adj x y -> In y D /\ (st x = Child y \/ st y = Child x)) -> Inv root st (x :: P) D W noE.
Proof.
  intros root st P D x W E [I1 I2 I3 I4 [I5a I5b] I6] HE Hx. split; auto.
  - intros z y [<-|Hz] A; auto.
  - intros y z Hy. left. destruct (I4 y z Hy) as [H|H]; [right; auto|left; symmetry; eapply HE; eauto].
  - split.
    + cbn [app]. apply Permutation_NoDup with (P ++ x :: W); auto. symmetry. apply Permutation_middle.
    + intros y. rewrite I5b. cbn [app]. rewrite in_app_iff. cbn [In]. rewrite in_app_iff. tauto.
  - intros y Hy. apply I6. right. auto.
Qed.

Lemma inv_cycle : forall root st P D x W E y, Inv root st P D (x :: W) E -> adj x y -> st y <> Undisc -> st x <> Child y -> ~ E x y ->
  exists c, cycle adj c.
Proof.
  intros root st P D x W E y [[I1a I1b] I2 I3 I4 [I5a I5b] I6] A Uy Nx NE.
  assert (Px : ~ In x P). { intro H. apply (NoDup_remove_2 P W x) in I5a. apply I5a. apply in_app_iff. auto. }
  assert (Ny : st y <> Child x). { intro H. apply I4 in H. tauto. }
  assert (Py : ~ In y P). { intro H. destruct (I3 y x H (adj_sym _ _ A)) as [_ [X|X]]; auto. }
  apply I1b in Uy as Dy. apply I5b in Dy. apply in_app_iff in Dy. destruct Dy as [Dy|Dy]; [tauto|].
  set (R := fun a b => st a = Child b \/ st b = Child a).
  assert (Tree : forall a b, st a = Child b -> adj a b).
  { intros a b H. assert (In a D) by (apply I1b; congruence). apply in_split in H0. destruct H0 as [l1 [l2 E0]].
    destruct (I2 l1 a l2 E0) as [X|[z [X1 [_ X2]]]]; [congruence|]. rewrite H in X1. injection X1 as <-. auto. }
  apply (closing_edge node node_dec R adj) with x y; auto.
  - unfold R. intros a b. tauto.
  - intros a b [H|H]; auto.
  - apply (rst_trans _ _ _ root); [apply rst_sym|]; apply I6; [left|]; auto.
  - intros ->. eapply adj_irrefl; eauto.
  - unfold R. tauto.
Qed.

(** When everything is processed there is no cycle. *)
Lemma inv_forest : forall root st P D c, Inv root st P D [] noE -> (forall a b, adj a b -> In a D) -> ~ cycle adj c.
Proof.
  intros root st P D c [[I1a I1b] I2 I3 I4 [I5a I5b] I6] All C. rewrite app_nil_r in I5b.
  assert (Q : forall r l, D = l ++ r -> (forall x, In x c -> In x r) -> False).
  { induction r as [|x r IH]; intros l E H.
    - destruct C as [_ [L _]]. destruct c as [|a c]; [cbn in L; lia|]. destruct (H a). left. auto.
    - destruct (in_dec node_dec x c) as [Hx|Hx].
      + destruct (cycle_two _ adj c x adj_sym C Hx) as [a [b [N [Ha [Hb [Na [Nb [Aa Ab]]]]]]]].
        assert (F : forall w, In w c -> w <> x -> adj x w -> st x = Child w).
        { intros w Hw Nw Aw. assert (In x P). { apply I5b. apply (All x w). auto. } destruct (I3 x w H0 Aw) as [_ [X|X]]; auto. exfalso.
          apply H in Hw. destruct Hw as [Hw|Hw]; [congruence|]. apply in_split in Hw. destruct Hw as [r1 [r2 E2]].
          destruct (I2 (l ++ x :: r1) w r2) as [Y|[z [Y1 [Y2 _]]]]. { rewrite E, E2, <- app_assoc. auto. } { congruence. }
          assert (z = x) by congruence. subst z. rewrite E in I1a. apply NoDup_remove_2 in I1a. apply I1a. apply in_app_iff. right. rewrite E2. apply in_app_iff. right. right. auto. }
        assert (st x = Child a) by auto. assert (st x = Child b) by auto. congruence.
      + apply (IH (l ++ [x])). { rewrite <- app_assoc. auto. } intros y Hy. destruct (H y Hy) as [<-|]; auto. tauto. }
  apply (Q D []); auto. intros x Hx. destruct (cycle_two _ adj c x adj_sym C Hx) as [a [b [N [Ha [Hb [Na [Nb [Aa Ab]]]]]]]]. eauto.
Qed.
End Search.

(** ** The vectors of the program *)
Section Program.
Variable g : fgraph.
Hypothesis WF : wf_fgraph g.
Notation nv := (length (g_adj g)).
Notation nf := (length (g_fac g)).
Notation vars := (vars g).
Notation facs := (facs g).

Definition stat (ff vf : list nat) (x : node) : status :=
  match x with
  | NF f => match nth_error ff f with
            | Some y => if y =? nv then Undisc else if y =? nv + 1 then Root else Child (NV y) | None => Undisc end
  | NV v => match nth_error vf v with
            | Some y => if y =? nf then Undisc else Child (NF y) | None => Undisc end
  end.

Lemma edge_sym : forall a b, edge g a b -> edge g b a.
Proof. intros [a|a] [b|b]; auto. Qed.
Lemma edge_irrefl : forall a, ~ edge g a a.
Proof. intros [a|a] H; auto. Qed.

Notation INV := (Inv (edge g)).

Definition loop_post (root : node) (P D : list node) (ff vf : list nat) (o : option bfs) (Wf : list nat -> list node) : Prop :=
  match o with
  | None => exists c, cycle (edge g) c
  | Some (ff', vf', q') => length ff' = nf /\ length vf' = nv /\ exists D', (forall z, In z D -> In z D') /\ INV root (stat ff' vf') P D' (Wf q') noE
  end.

Lemma fold_factor : forall f root P (W : list nat -> list node), f < nf -> (forall q v, W (q ++ [v]) = W q ++ [NV v]) ->
  forall rest done ff vf q D, vars f = done ++ rest -> length ff = nf -> length vf = nv ->
  INV root (stat ff vf) P D (NF f :: W q) (fun z y => z = NF f /\ In y (map NV done)) ->
  (forall v, In v done -> In (NV v) D /\ (stat ff vf (NF f) = Child (NV v) \/ stat ff vf (NV v) = Child (NF f))) ->
  exists o, foldO (fun (st : bfs) j =>
    let '(ff, vf, q) := st in
    v <- variableOfFactor g f j ;; x <- rd vf v ;;
    if x =? NO_FACTOR g then vf <- wr vf v f ;; Ret (Some (ff, vf, q ++ [v]))
    else y <- rd ff f ;; if negb (y =? v) then Ret None else Ret (Some (ff, vf, q)))
    (seq (length done) (length rest)) (ff, vf, q) = Ret o /\ loop_post root (NF f :: P) D ff vf o W.
Proof.
  intros f root P W Hf HW. induction rest as [|v rest IH]; intros done ff vf q D E L1 L2 I Hd.
  - cbn [length seq foldO]. eexists. split; [reflexivity|]. cbn [loop_post]. split; auto. split; auto. exists D. split; auto.
    eapply inv_finish; eauto.
    + intros z y [H _]. auto.
    + intros y A. destruct y as [v|f']; [|destruct A]. cbn [edge] in A. apply (incident_iff g) in A. destruct A as [_ A]. rewrite E, app_nil_r in A. auto.
  - cbn [length seq foldO]. rewrite variableOfFactor_eq by auto.
    rewrite (rd_Ret _ _ _ v) by (rewrite E, nth_error_app2, Nat.sub_diag; auto). cbn [bind].
    assert (Iv : In v (vars f)) by (rewrite E; apply in_app_iff; right; left; auto).
    assert (Inc : incident g f v) by (apply incident_iff; auto). assert (Hv : v < nv) by (eapply vars_lt; eauto).
    assert (Nd : ~ In v done). { pose proof (sorted_NoDup _ (vars_sorted g WF f)) as ND. rewrite E in ND. apply NoDup_remove_2 in ND. intro H. apply ND. apply in_app_iff. auto. }
    rewrite (rd_nth _ vf v 0) by lia. cbn [bind].
    assert (Sv : stat ff vf (NV v) = if nth v vf 0 =? NO_FACTOR g then Undisc else Child (NF (nth v vf 0))).
    { cbn [stat]. rewrite (nth_error_nth' vf 0) by lia. auto. }
    destruct (Nat.eqb_spec (nth v vf 0) (NO_FACTOR g)) as [C|C]; change (NO_FACTOR g) with nf in C.
    + rewrite wr_Ret by lia. cbn [bind].
      assert (Up : forall z, stat ff (upd vf v f) z = if node_dec z (NV v) then Child (NF f) else stat ff vf z).
      { intros [w|w]; cbn [stat].
        - destruct (node_dec (NV w) (NV v)) as [X|X].
          + injection X as ->. rewrite nth_error_upd_eq by lia. destruct (Nat.eqb_spec f nf); [lia|auto].
          + rewrite nth_error_upd_neq by congruence. auto.
        - destruct (node_dec (NF w) (NV v)) as [X|X]; [discriminate|auto]. }
      destruct (IH (done ++ [v]) ff (upd vf v f) (q ++ [v]) (NV v :: D)) as [o [Eo Po]]; auto.
      * rewrite <- app_assoc. auto.
      * rewrite length_upd. auto.
      * rewrite HW. change (NF f :: W q ++ [NV v]) with ((NF f :: W q) ++ [NV v]). eapply inv_new; eauto.
        -- intros a b [H1 H2]. split; auto. rewrite map_app. apply in_app_iff. auto.
        -- split; auto. rewrite map_app. apply in_app_iff. right. left. auto.
      * intros w Hw. apply in_app_iff in Hw. rewrite !Up. destruct Hw as [Hw|[<-|[]]].
        -- assert (w <> v) by (intros ->; auto). destruct (Hd w Hw) as [X1 X2]. split; [right; auto|].
           destruct (node_dec (NF f) (NV v)); [discriminate|]. destruct (node_dec (NV w) (NV v)) as [X|X]; [congruence|auto].
        -- split; [left; auto|]. right. destruct (node_dec (NV v) (NV v)); congruence.
      * rewrite app_length in Eo. cbn [length] in Eo. rewrite Nat.add_1_r in Eo. rewrite Eo. exists o. split; auto.
        destruct o as [[[ff' vf'] q']|]; auto. cbn [loop_post] in *. destruct Po as [A1 [A2 [D' [A3 A4]]]]. repeat split; auto. exists D'. split; auto. intros; apply A3; right; auto.
    + rewrite (rd_nth _ ff f 0) by lia. cbn [bind].
      assert (Sf : stat ff vf (NF f) = Child (NV v) <-> nth f ff 0 = v).
      { cbn [stat]. rewrite (nth_error_nth' ff 0) by lia. split.
        - destruct (nth f ff 0 =? nv); [discriminate|]. destruct (nth f ff 0 =? nv + 1); [discriminate|]. congruence.
        - intros ->. destruct (Nat.eqb_spec v nv); [lia|]. destruct (Nat.eqb_spec v (nv + 1)); [lia|]. auto. }
      destruct (Nat.eqb_spec (nth f ff 0) v) as [C2|C2]; cbn [negb bind].
      * apply Sf in C2. destruct (IH (done ++ [v]) ff vf q D) as [o [Eo Po]]; auto.
        -- rewrite <- app_assoc. auto.
        -- eapply inv_weaken; eauto. intros a b [H1 H2]. split; auto. rewrite map_app. apply in_app_iff. auto.
        -- intros w Hw. apply in_app_iff in Hw. destruct Hw as [Hw|[<-|[]]]; auto. split; auto.
           destruct I as [[_ X] _ _ _ _ _]. apply X. rewrite Sv. discriminate.
        -- rewrite app_length in Eo. cbn [length] in Eo. rewrite Nat.add_1_r in Eo. rewrite Eo. exists o. split; auto.
      * exists None. split; auto. cbn [loop_post]. eapply (inv_cycle (edge g) edge_sym edge_irrefl) with (x := NF f) (y := NV v); eauto.
        -- rewrite Sv. discriminate.
        -- intro X. apply Sf in X. auto.
        -- intros [_ X]. apply in_map_iff in X. destruct X as [w [X1 X2]]. injection X1 as ->. auto.
Qed.

Lemma fold_variable : forall v root P (W : list nat -> list node), v < nv -> (forall q f, W (q ++ [f]) = W q ++ [NF f]) ->
  forall rest done ff vf q D, facs v = done ++ rest -> length ff = nf -> length vf = nv ->
  INV root (stat ff vf) P D (NV v :: W q) (fun z y => z = NV v /\ In y (map NF done)) ->
  (forall f, In f done -> In (NF f) D /\ (stat ff vf (NV v) = Child (NF f) \/ stat ff vf (NF f) = Child (NV v))) ->
  exists o, foldO (fun (st : bfs) j =>
    let '(ff, vf, q) := st in
    f <- factorOfVariable g v j ;; x <- rd ff f ;;
    if x =? NO_VARIABLE g then ff <- wr ff f v ;; Ret (Some (ff, vf, q ++ [f]))
    else y <- rd vf v ;; if negb (y =? f) then Ret None else Ret (Some (ff, vf, q)))
    (seq (length done) (length rest)) (ff, vf, q) = Ret o /\ loop_post root (NV v :: P) D ff vf o W.
Proof.
  intros v root P W Hv HW. induction rest as [|f rest IH]; intros done ff vf q D E L1 L2 I Hd.
  - cbn [length seq foldO]. eexists. split; [reflexivity|]. cbn [loop_post]. split; auto. split; auto. exists D. split; auto.
    eapply inv_finish; eauto.
    + intros z y [H _]. auto.
    + intros y A. destruct y as [v'|f]; [destruct A|]. cbn [edge] in A. apply (facs_iff g WF) in A; auto. rewrite E, app_nil_r in A. auto.
  - cbn [length seq foldO]. rewrite factorOfVariable_eq by auto.
    rewrite (rd_Ret _ _ _ f) by (rewrite E, nth_error_app2, Nat.sub_diag; auto). cbn [bind].
    assert (Iv : In f (facs v)) by (rewrite E; apply in_app_iff; right; left; auto).
    assert (Inc : incident g f v) by (apply facs_iff; auto). assert (Hf : f < nf) by (apply (incident_lt g WF) in Inc; tauto).
    assert (Nd : ~ In f done). { pose proof (sorted_NoDup _ (facs_sorted g WF v)) as ND. rewrite E in ND. apply NoDup_remove_2 in ND. intro H. apply ND. apply in_app_iff. auto. }
    rewrite (rd_nth _ ff f 0) by lia. cbn [bind].
    assert (Sf : stat ff vf (NF f) = if nth f ff 0 =? NO_VARIABLE g then Undisc else if nth f ff 0 =? nv + 1 then Root else Child (NV (nth f ff 0))).
    { cbn [stat]. rewrite (nth_error_nth' ff 0) by lia. auto. }
    destruct (Nat.eqb_spec (nth f ff 0) (NO_VARIABLE g)) as [C|C]; change (NO_VARIABLE g) with nv in C.
    + rewrite wr_Ret by lia. cbn [bind].
      assert (Up : forall z, stat (upd ff f v) vf z = if node_dec z (NF f) then Child (NV v) else stat ff vf z).
      { intros [w|w]; cbn [stat].
        - destruct (node_dec (NV w) (NF f)) as [X|X]; [discriminate|auto].
        - destruct (node_dec (NF w) (NF f)) as [X|X].
          + injection X as ->. rewrite nth_error_upd_eq by lia. destruct (Nat.eqb_spec v nv); [lia|]. destruct (Nat.eqb_spec v (nv + 1)); [lia|auto].
          + rewrite nth_error_upd_neq by congruence. auto. }
      destruct (IH (done ++ [f]) (upd ff f v) vf (q ++ [f]) (NF f :: D)) as [o [Eo Po]]; auto.
      * rewrite <- app_assoc. auto.
      * rewrite length_upd. auto.
      * rewrite HW. change (NV v :: W q ++ [NF f]) with ((NV v :: W q) ++ [NF f]). eapply inv_new; eauto.
        -- intros a b [H1 H2]. split; auto. rewrite map_app. apply in_app_iff. auto.
        -- split; auto. rewrite map_app. apply in_app_iff. right. left. auto.
      * intros w Hw. apply in_app_iff in Hw. rewrite !Up. destruct Hw as [Hw|[<-|[]]].
        -- assert (w <> f) by (intros ->; auto). destruct (Hd w Hw) as [X1 X2]. split; [right; auto|].
           destruct (node_dec (NV v) (NF f)); [discriminate|]. destruct (node_dec (NF w) (NF f)) as [X|X]; [congruence|auto].
        -- split; [left; auto|]. right. destruct (node_dec (NF f) (NF f)); congruence.
      * rewrite app_length in Eo. cbn [length] in Eo. rewrite Nat.add_1_r in Eo. rewrite Eo. exists o. split; auto.
        destruct o as [[[ff' vf'] q']|]; auto. cbn [loop_post] in *. destruct Po as [A1 [A2 [D' [A3 A4]]]]. repeat split; auto. exists D'. split; auto. intros; apply A3; right; auto.
    + rewrite (rd_nth _ vf v 0) by lia. cbn [bind].
      assert (Sv : stat ff vf (NV v) = Child (NF f) <-> nth v vf 0 = f).
      { cbn [stat]. rewrite (nth_error_nth' vf 0) by lia. split.
        - destruct (nth v vf 0 =? nf); [discriminate|]. congruence.
        - intros ->. destruct (Nat.eqb_spec f nf); [lia|]. auto. }
      assert (Df : stat ff vf (NF f) <> Undisc). { rewrite Sf. destruct (nth f ff 0 =? nv + 1); discriminate. }
      destruct (Nat.eqb_spec (nth v vf 0) f) as [C2|C2]; cbn [negb bind].
      * apply Sv in C2. destruct (IH (done ++ [f]) ff vf q D) as [o [Eo Po]]; auto.
        -- rewrite <- app_assoc. auto.
        -- eapply inv_weaken; eauto. intros a b [H1 H2]. split; auto. rewrite map_app. apply in_app_iff. auto.
        -- intros w Hw. apply in_app_iff in Hw. destruct Hw as [Hw|[<-|[]]]; auto. split; auto.
           destruct I as [[_ X] _ _ _ _ _]. apply X. auto.
        -- rewrite app_length in Eo. cbn [length] in Eo. rewrite Nat.add_1_r in Eo. rewrite Eo. exists o. split; auto.
      * exists None. split; auto. cbn [loop_post]. eapply (inv_cycle (edge g) edge_sym edge_irrefl) with (x := NV v) (y := NF f); eauto.
        -- intro X. apply Sv in X. auto.
        -- intros [_ X]. apply in_map_iff in X. destruct X as [w [X1 X2]]. injection X1 as ->. auto.
Qed.

(** A whole queue. *)
Lemma all_factors : forall fs root P D ff vf q, length ff = nf -> length vf = nv -> (forall f, In f fs -> f < nf) ->
  INV root (stat ff vf) P D (map NF fs ++ map NV q) noE ->
  exists o, foldO (bfs_factor g) fs (ff, vf, q) = Ret o /\ loop_post root (rev (map NF fs) ++ P) D ff vf o (map NV).
Proof.
  induction fs as [|f fs IH]; intros root P D ff vf q L1 L2 Hfs I.
  - exists (Some (ff, vf, q)). split; auto. cbn. repeat split; auto. exists D. auto.
  - cbn [foldO]. assert (Hf : f < nf) by (apply Hfs; left; auto).
    destruct (fold_factor f root P (fun q => map NF fs ++ map NV q) Hf) with (rest := vars f) (done := @nil nat) (ff := ff) (vf := vf) (q := q) (D := D) as [o [E H]]; auto.
    + intros q' v. rewrite map_app. apply app_assoc.
    + eapply inv_weaken; eauto. intros ? ? [].
    + intros ? [].
    + unfold bfs_factor at 1. rewrite orderOf_Ret by auto. cbn [bind]. cbn [length] in E. rewrite E. cbn [bind].
      destruct o as [[[ff' vf'] q']|]; [|exists None; auto]. cbn [loop_post] in H. destruct H as [A1 [A2 [D' [A3 A4]]]].
      destruct (IH root (NF f :: P) D' ff' vf' q' A1 A2) as [o [E2 H2]]; auto. { intros; apply Hfs; right; auto. }
      exists o. split; auto. cbn [map rev]. rewrite <- app_assoc. cbn [app].
      destruct o as [[[ff2 vf2] q2]|]; auto. cbn [loop_post] in *. destruct H2 as [B1 [B2 [D2 [B3 B4]]]]. repeat split; auto. exists D2. auto.
Qed.
Lemma all_variables : forall vs root P D ff vf q, length ff = nf -> length vf = nv -> (forall v, In v vs -> v < nv) ->
  INV root (stat ff vf) P D (map NV vs ++ map NF q) noE ->
  exists o, foldO (bfs_variable g) vs (ff, vf, q) = Ret o /\ loop_post root (rev (map NV vs) ++ P) D ff vf o (map NF).
Proof.
  induction vs as [|v vs IH]; intros root P D ff vf q L1 L2 Hvs I.
  - exists (Some (ff, vf, q)). split; auto. cbn. repeat split; auto. exists D. auto.
  - cbn [foldO]. assert (Hv : v < nv) by (apply Hvs; left; auto).
    destruct (fold_variable v root P (fun q => map NV vs ++ map NF q) Hv) with (rest := facs v) (done := @nil nat) (ff := ff) (vf := vf) (q := q) (D := D) as [o [E H]]; auto.
    + intros q' f. rewrite map_app. apply app_assoc.
    + eapply inv_weaken; eauto. intros ? ? [].
    + intros ? [].
    + unfold bfs_variable at 1. rewrite degreeOf_Ret by auto. cbn [bind]. cbn [length] in E. rewrite E. cbn [bind].
      destruct o as [[[ff' vf'] q']|]; [|exists None; auto]. cbn [loop_post] in H. destruct H as [A1 [A2 [D' [A3 A4]]]].
      destruct (IH root (NV v :: P) D' ff' vf' q' A1 A2) as [o [E2 H2]]; auto. { intros; apply Hvs; right; auto. }
      exists o. split; auto. cbn [map rev]. rewrite <- app_assoc. cbn [app].
      destruct o as [[[ff2 vf2] q2]|]; auto. cbn [loop_post] in *. destruct H2 as [B1 [B2 [D2 [B3 B4]]]]. repeat split; auto. exists D2. auto.
Qed.

(** Discovered nodes exist. *)
Lemma disc_valid : forall root ff vf P D W E, length ff = nf -> length vf = nv -> INV root (stat ff vf) P D W E ->
  forall x, In x D -> match x with NV v => v < nv | NF f => f < nf end.
Proof.
  intros root ff vf P D W E L1 L2 I x Hx. destruct I as [[_ X] _ _ _ _ _]. apply X in Hx. destruct x as [v|f]; cbn [stat] in Hx.
  - rewrite <- L2. apply nth_error_Some. destruct (nth_error vf v); congruence.
  - rewrite <- L1. apply nth_error_Some. destruct (nth_error ff f); congruence.
Qed.

Definition isF (x : node) : bool := match x with NF _ => true | NV _ => false end.
Definition nproc (P : list node) : nat := length (filter isF P).

Lemma nproc_le : forall root ff vf P D W E, length ff = nf -> length vf = nv -> INV root (stat ff vf) P D W E -> nproc (P ++ W) <= nf.
Proof.
  intros root ff vf P D W E L1 L2 I. pose proof (disc_valid root ff vf P D W E L1 L2 I) as V. destruct I as [_ _ _ _ [N1 N2] _]. unfold nproc.
  rewrite <- (map_length (fun x => match x with NF f => f | NV v => v end)). apply NoDup_bounded_length.
  - apply NoDup_map_in. { apply NoDup_filter. auto. }
    intros a b Ha Hb. apply filter_In in Ha, Hb. destruct a, b; cbn in *; destruct Ha, Hb; try discriminate. intros ->. auto.
  - intros f Hf. apply in_map_iff in Hf. destruct Hf as [x [Ex Hx]]. apply filter_In in Hx. destruct Hx as [H1 H2]. destruct x as [v|f']; [discriminate|].
    subst. apply (V (NF f)). apply N2. auto.
Qed.

Lemma rounds : forall fuel root P D ff vf fq, length ff = nf -> length vf = nv ->
  INV root (stat ff vf) P D (map NF fq) noE -> nf < fuel + nproc P ->
  exists o, bfs_rounds g fuel ff vf fq = Ret o /\
    match o with
    | None => exists c, cycle (edge g) c
    | Some (ff', vf') => length ff' = nf /\ length vf' = nv /\ exists P' D', (forall z, In z D -> In z D') /\ INV root (stat ff' vf') P' D' [] noE
    end.
Proof.
  induction fuel as [|fuel IH]; intros root P D ff vf fq L1 L2 I Hfuel.
  - pose proof (nproc_le _ _ _ _ _ _ _ L1 L2 I) as Q. unfold nproc in *. rewrite filter_app, app_length in Q. lia.
  - destruct fq as [|f fq]. { exists (Some (ff, vf)). split; auto. split; auto. split; auto. exists P, D. auto. }
    cbn [bfs_rounds]. set (fs := f :: fq) in *.
    destruct (all_factors fs root P D ff vf []) as [o [E H]]; auto.
    { intros x Hx. apply (disc_valid _ _ _ _ _ _ _ L1 L2 I (NF x)). destruct I as [_ _ _ _ [_ X] _]. apply X. apply in_app_iff. right. apply in_map. auto. }
    { cbn [map]. rewrite app_nil_r. auto. }
    rewrite E. cbn [bind]. destruct o as [[[ff1 vf1] vq]|]; [|exists None; auto]. cbn [loop_post] in H. destruct H as [A1 [A2 [D1 [A3 A4]]]].
    destruct (all_variables vq root (rev (map NF fs) ++ P) D1 ff1 vf1 []) as [o [E2 H2]]; auto.
    { intros x Hx. apply (disc_valid _ _ _ _ _ _ _ A1 A2 A4 (NV x)). destruct A4 as [_ _ _ _ [_ X] _]. apply X. apply in_app_iff. right. apply in_map. auto. }
    { cbn [map]. rewrite app_nil_r. auto. }
    rewrite E2. cbn [bind]. destruct o as [[[ff2 vf2] fq2]|]; [|exists None; auto]. cbn [loop_post] in H2. destruct H2 as [B1 [B2 [D2 [B3 B4]]]].
    destruct (IH root (rev (map NV vq) ++ rev (map NF fs) ++ P) D2 ff2 vf2 fq2) as [o [E3 H3]]; auto.
    { unfold nproc in *. rewrite !filter_app, !app_length. assert (1 <= length (filter isF (rev (map NF fs)))); [|lia].
      unfold fs. cbn [map rev]. rewrite filter_app, app_length. cbn. lia. }
    rewrite E3. exists o. split; auto. destruct o as [[ff3 vf3]|]; auto. destruct H3 as [C1 [C2 [P3 [D3 [C3 C4]]]]]. split; auto. split; auto. exists P3, D3. split; auto.
Qed.

Lemma inv_root : forall root ff vf P D F, length ff = nf -> length vf = nv -> F < nf -> INV root (stat ff vf) P D [] noE -> nth F ff 0 = nv ->
  INV (NF F) (stat (upd ff F (nv + 1)) vf) P (NF F :: D) [NF F] noE.
Proof.
  intros root ff vf P D F L1 L2 HF [[I1a I1b] I2 I3 I4 [I5a I5b] I6] E. rewrite app_nil_r in *.
  assert (Up : forall z, stat (upd ff F (nv + 1)) vf z = if node_dec z (NF F) then Root else stat ff vf z).
  { intros [w|w]; cbn [stat].
    - destruct (node_dec (NV w) (NF F)) as [X|X]; [discriminate|auto].
    - destruct (node_dec (NF w) (NF F)) as [X|X].
      + injection X as ->. rewrite nth_error_upd_eq by lia. destruct (Nat.eqb_spec (nv + 1) nv); [lia|]. rewrite Nat.eqb_refl. auto.
      + rewrite nth_error_upd_neq by congruence. auto. }
  assert (U : stat ff vf (NF F) = Undisc). { cbn [stat]. rewrite (nth_error_nth' ff 0) by lia. rewrite E, Nat.eqb_refl. auto. }
  assert (ND : ~ In (NF F) D) by (intro H; apply I1b in H; auto).
  assert (EqD : forall z, In z D -> stat (upd ff F (nv + 1)) vf z = stat ff vf z). { intros z Hz. rewrite Up. destruct (node_dec z (NF F)); auto. subst. tauto. }
  split.
  - split; [constructor; auto|]. intros y. rewrite Up. destruct (node_dec y (NF F)) as [->|N].
    + split; [left; auto|discriminate].
    + rewrite I1b. split; [right; auto|]. intros [H|H]; [congruence|auto].
  - intros l y r E0. destruct l as [|a l].
    + injection E0 as <- <-. left. rewrite Up. destruct (node_dec (NF F) (NF F)); congruence.
    + injection E0 as <- E0. assert (In y D) by (rewrite E0; apply in_app_iff; right; left; auto). rewrite EqD by auto. apply (I2 l y r E0).
  - intros z y Hz A. destruct (I3 z y Hz A) as [H1 H2]. split; [right; auto|]. apply I5b in Hz. rewrite !EqD by auto. auto.
  - intros y z. rewrite Up. destruct (node_dec y (NF F)); [discriminate|]. apply I4.
  - split.
    + apply NoDup_app_intro; auto. { constructor; [intros []|constructor]. } intros z Hz [<-|[]]. apply ND. apply I5b. auto.
    + intros y. rewrite in_app_iff, <- I5b. cbn [In]. tauto.
  - intros y [<-|[]]. apply rst_refl.
Qed.

Lemma isAcyclic_spec : exists b, isAcyclic g = Ret b /\ (b = true <-> forall c, ~ cycle (edge g) c).
Proof.
  assert (Q : forall k root P D ff vf, k <= nf -> length ff = nf -> length vf = nv -> INV root (stat ff vf) P D [] noE ->
    (forall f, f < nf - k -> In (NF f) D) ->
    exists o, foldO (fun (st : list nat * list nat) F =>
         let '(ff, vf) := st in
         x <- rd ff F ;;
         if x =? NO_VARIABLE g then ff <- wr ff F (ROOT_FACTOR g) ;; bfs_rounds g (S (numberOfFactors g)) ff vf [F]
         else Ret (Some (ff, vf))) (seq (nf - k) k) (ff, vf) = Ret o /\
      (o <> None <-> forall c, ~ cycle (edge g) c)).
  { induction k as [|k IH]; intros root P D ff vf Hk L1 L2 I HD.
    - cbn [seq foldO]. eexists. split; [reflexivity|]. split; [|discriminate]. intros _ c.
      apply (inv_forest (edge g) edge_sym root (stat ff vf) P D c I).
      assert (X : forall f v, incident g f v -> In (NF f) D /\ In (NV v) D).
      { intros f v H. assert (Hf : f < nf) by (apply (incident_lt g WF) in H; tauto). assert (In (NF f) D) by (apply HD; lia). split; auto.
        destruct I as [_ _ I3 _ [_ I5] _]. apply (I3 (NF f)); auto. apply I5 in H0. rewrite app_nil_r in H0. auto. }
      intros [v|f] [v'|f'] A; cbn [edge] in A; try tauto; apply X in A; tauto.
    - cbn [seq foldO]. rewrite (rd_nth _ ff (nf - S k) 0) by lia. cbn [bind]. unfold NO_VARIABLE at 1, numberOfVariables at 1.
      replace (S (nf - S k)) with (nf - k) by lia.
      destruct (Nat.eqb_spec (nth (nf - S k) ff 0) nv) as [C|C].
      + rewrite wr_Ret by lia. cbn [bind]. unfold ROOT_FACTOR at 1, numberOfVariables at 1.
        pose proof (inv_root root ff vf P D (nf - S k) L1 L2 ltac:(lia) I C) as I'.
        destruct (rounds (S (numberOfFactors g)) (NF (nf - S k)) P (NF (nf - S k) :: D) (upd ff (nf - S k) (nv + 1)) vf [nf - S k]) as [o [E H]]; auto.
        { rewrite length_upd. auto. } { unfold numberOfFactors. lia. }
        rewrite E. cbn [bind]. destruct o as [[ff' vf']|].
        * destruct H as [A1 [A2 [P' [D' [A3 A4]]]]]. apply (IH (NF (nf - S k)) P' D'); auto; [lia|]. intros f Hf.
          apply A3. destruct (Nat.eq_dec f (nf - S k)) as [->|N]; [left; auto|]. right. apply HD. lia.
        * exists None. split; auto. split; [congruence|]. intros X. destruct H as [c Hc]. destruct (X c Hc).
      + cbn [bind]. apply (IH root P D); auto; [lia|]. intros f Hf. destruct (Nat.eq_dec f (nf - S k)) as [->|N]; [|apply HD; lia].
        destruct I as [[_ X] _ _ _ _ _]. apply X. cbn [stat]. rewrite (nth_error_nth' ff 0) by lia. destruct (Nat.eqb_spec (nth (nf - S k) ff 0) nv); [lia|].
        destruct (nth (nf - S k) ff 0 =? nv + 1); discriminate. }
  unfold isAcyclic. change (seq 0 (numberOfFactors g)) with (seq 0 nf).
  destruct (Q nf (NF 0) [] [] (repeat (NO_VARIABLE g) (numberOfFactors g)) (repeat (NO_FACTOR g) (numberOfVariables g))) as [o [E H]]; auto.
  - apply repeat_length.
  - apply repeat_length.
  - assert (U : forall y, stat (repeat (NO_VARIABLE g) (numberOfFactors g)) (repeat (NO_FACTOR g) (numberOfVariables g)) y = Undisc).
    { intros [v|f]; cbn [stat].
      - destruct (nth_error (repeat (NO_FACTOR g) (numberOfVariables g)) v) as [y|] eqn:E; auto. apply nth_error_In, repeat_spec in E. subst.
        unfold NO_FACTOR, numberOfFactors. rewrite Nat.eqb_refl. auto.
      - destruct (nth_error (repeat (NO_VARIABLE g) (numberOfFactors g)) f) as [y|] eqn:E; auto. apply nth_error_In, repeat_spec in E. subst.
        unfold NO_VARIABLE, numberOfVariables. rewrite Nat.eqb_refl. auto. }
    split.
    + split; [constructor|]. intros y. rewrite U. split; [congruence|intros []].
    + intros l y r E. destruct l; discriminate.
    + intros z y [].
    + intros y z H. rewrite U in H. discriminate.
    + split; [constructor|]. intros y. split; intros [].
    + intros y [].
  - intros f Hf. lia.
  - rewrite Nat.sub_diag in E. rewrite E. cbn [bind]. eexists. split; [reflexivity|]. rewrite <- H. destruct o; split; congruence.
Qed.
End Program.
