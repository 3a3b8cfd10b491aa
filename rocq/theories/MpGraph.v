(** Graphs without cycles: the side of an edge, and induction along edges. *)
From Coq Require Import Relations.
From Verif Require Import Base FactorGraphSpec FactorGraphAcyclic.

Section Forest.
Variable A : Type.
Variable dec : forall a b : A, {a = b} + {a <> b}.
Variable R : A -> A -> Prop.
Hypothesis Sym : forall a b, R a b -> R b a.
Hypothesis Irr : forall a, ~ R a a.
Hypothesis NC : forall c, ~ cycle R c.

(** A step that is not along the edge between [a] and [b]. *)
Definition avoid (a b x y : A) : Prop := R x y /\ ~ (x = a /\ y = b) /\ ~ (x = b /\ y = a).
(** What is reached from [a] without the edge to [b]. *)
Definition side (a b x : A) : Prop := clos_refl_trans A (avoid a b) a x.

Lemma avoid_sym : forall a b x y, avoid a b x y -> avoid a b y x.
Proof. intros a b x y (H1 & H2 & H3). split; [auto|split; tauto]. Qed.
Lemma avoid_flip : forall a b x y, avoid a b x y -> avoid b a x y.
Proof. intros a b x y (H1 & H2 & H3). split; [auto|split; tauto]. Qed.
Lemma rt_sym : forall (S : A -> A -> Prop), (forall a b, S a b -> S b a) -> forall x y, clos_refl_trans A S x y -> clos_refl_trans A S y x.
Proof. intros S HS x y H. induction H; [apply rt_step; auto|apply rt_refl|eapply rt_trans; eauto]. Qed.

Lemma side_self : forall a b, side a b a.
Proof. intros. apply rt_refl. Qed.
Lemma side_step : forall a b x y, side a b x -> avoid a b x y -> side a b y.
Proof. intros a b x y H1 H2. eapply rt_trans; [exact H1|apply rt_step; exact H2]. Qed.
Lemma side_ind : forall a b (P : A -> Prop), P a -> (forall x y, side a b x -> P x -> avoid a b x y -> P y) -> forall x, side a b x -> P x.
Proof.
  intros a b P H0 HS x H. apply clos_rt_rtn1 in H. induction H as [|y z Hyz H IH]; auto. apply (HS y z); auto. apply clos_rtn1_rt. auto.
Qed.

(** The other end of an edge is not reached without the edge. *)
Lemma no_return : forall a b, R a b -> ~ side a b b.
Proof.
  intros a b E H.
  destruct (closing_edge A dec (avoid a b) R (avoid_sym a b) (fun x y H => proj1 H) a b) as [c C]; auto.
  - apply clos_rt_clos_rst. exact H.
  - intros ->. eapply Irr; eauto.
  - intros (_ & N & _). tauto.
  - eapply NC; eauto.
Qed.

Lemma side_sub : forall a b c, R a b -> R a c -> c <> b -> forall x, side c a x -> side a b x.
Proof.
  intros a b c Eb Ec N. apply side_ind.
  - apply rt_step. split; auto. split; [intros [_ ?]; auto|]. intros [-> ->]. eapply Irr; eauto.
  - intros x y Hx IH Axy. apply (side_step a b x y IH). split; [apply Axy|].
    assert (Ny : y <> a). { intros ->. apply (no_return c a); auto. eapply side_step; eauto. }
    assert (Nx : x <> a). { intros ->. apply (no_return c a); auto. }
    tauto.
Qed.

Lemma side_cases : forall a b x, R a b -> side a b x -> x = a \/ exists c, R a c /\ c <> b /\ side c a x.
Proof.
  intros a b x E. revert x. apply side_ind; auto. intros x y Hx IH (H1 & H2 & H3). destruct IH as [->|(c & Ec & Nc & Sc)].
  - right. exists y. split; auto. split; [intros ->; tauto|apply side_self].
  - destruct (dec y a) as [->|Ny]; auto. right. exists c. split; auto. split; auto. apply (side_step c a x y Sc). split; auto.
    split; [intros [_ ?]; auto|]. intros [-> ->]. apply (no_return c a); auto.
Qed.

Lemma side_not_back : forall a c, R a c -> ~ side c a a.
Proof. intros a c E. apply no_return. auto. Qed.

Lemma side_disjoint : forall a c c' x, R a c -> R a c' -> c <> c' -> side c a x -> side c' a x -> False.
Proof.
  intros a c c' x E E' N S1 S2. apply (no_return c a); [auto|].
  assert (Av : forall y, side c' a y -> clos_refl_trans A (avoid c a) c' y).
  { apply side_ind; [apply rt_refl|]. intros y z Hy IH Ayz. eapply rt_trans; [exact IH|]. apply rt_step. split; [apply Ayz|].
    assert (z <> a). { intros ->. apply (no_return c' a); auto. eapply side_step; eauto. }
    assert (y <> a). { intros ->. apply (no_return c' a); auto. } tauto. }
  eapply rt_trans; [exact S1|]. eapply rt_trans; [apply rt_sym; [apply avoid_sym|apply Av; exact S2]|].
  apply rt_step. split; auto. split; [intros [-> _]; auto|]. intros [-> _]. eapply Irr; eauto.
Qed.

(** Everything connected with [a]. *)
Lemma conn_cases : forall a x, clos_refl_trans A R a x <-> x = a \/ exists c, R a c /\ side c a x.
Proof.
  intros a x. split.
  - intros H. apply clos_rt_rtn1 in H. induction H as [|y z Hyz H IH]; auto. destruct IH as [->|(c & Ec & Sc)].
    + right. exists z. split; auto. apply side_self.
    + destruct (dec z a) as [->|Nz]; auto. right. exists c. split; auto. apply (side_step c a y z Sc). split; auto. split; [tauto|].
      intros [-> ->]. apply (no_return c a); auto.
  - assert (G : forall c y, side c a y -> clos_refl_trans A R c y).
    { intros c y H. eapply clos_rt_rt1n in H. induction H; [apply rt_refl|]. eapply rt_trans; [apply rt_step; apply H|]. auto. }
    intros [->|(c & Ec & Sc)]; [apply rt_refl|]. eapply rt_trans; [apply rt_step; exact Ec|]. apply G. auto.
Qed.

(** Walks that do not turn back have no node twice. *)
Fixpoint nbw (l : list A) : Prop :=
  match l with
  | x :: ((y :: t) as l') => R x y /\ match t with z :: _ => x <> z | [] => True end /\ nbw l'
  | _ => True
  end.
Lemma nbw_side : forall l a b, nbw (a :: b :: l) -> forall x, In x (b :: l) -> side b a x.
Proof.
  induction l as [|c l IH]; intros a b H x Hx.
  - destruct Hx as [<-|[]]. apply side_self.
  - destruct H as (E & N & H). destruct Hx as [<-|Hx]; [apply side_self|].
    destruct H as (E2 & H2). apply (side_sub b a c); auto. apply (IH b c); [split; auto|auto].
Qed.
Lemma nbw_nodup : forall l, nbw l -> NoDup l.
Proof.
  induction l as [|a l IH]; intros H; constructor.
  - intros Ha. destruct l as [|b l]; [destruct Ha|]. pose proof (nbw_side l a b H a Ha) as S. destruct H as (E & _). apply (no_return b a); auto.
  - apply IH. destruct l as [|b l]; [exact I|]. destruct H as (_ & _ & H). auto.
Qed.

(** Induction: from the edges that lead to the first node of an edge. *)
Variable all : list A.
Hypothesis All : forall a b, R a b -> In a all.

Lemma edge_ind : forall P : A -> A -> Prop,
  (forall a b, R a b -> (forall c, R c a -> c <> b -> P c a) -> P a b) -> forall a b, R a b -> P a b.
Proof.
  intros P H.
  assert (G : forall k a b l, R a b -> nbw (a :: b :: l) -> length all < k + length (a :: b :: l) -> P a b).
  { induction k as [|k IH]; intros a b l E W L.
    - exfalso. assert (length (a :: b :: l) <= length all); [|lia]. apply NoDup_incl_length; [apply nbw_nodup; auto|].
      assert (Q : forall l, nbw l -> 2 <= length l -> forall x, In x l -> In x all).
      { clear - All Sym. induction l as [|x [|y l] IH]; intros W L z Hz; cbn in L; try lia. destruct W as (E & _ & W). destruct Hz as [<-|Hz]; eauto.
        destruct l as [|w l]; [destruct Hz as [<-|[]]; eauto|]. apply IH; auto. cbn. lia. }
      intros x Hx. apply (Q (a :: b :: l)); auto. cbn. lia.
    - apply H; auto. intros c Ec Nc. apply (IH c a (b :: l)); auto.
      + split; auto.
      + cbn [length] in *. lia. }
  intros a b E. apply (G (length all) a b []); auto; cbn; [split; auto|lia].
Qed.
End Forest.
