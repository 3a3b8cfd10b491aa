(** Proofs for tentacle elimination: the reduced model after all tentacles. *)
From Coq Require Import Sorted Relations Permutation.
From Verif Require Import Base Values GmView GmViewSpec GmViewProofs ShapeSpec FactorGraphModel FactorGraphSpec SubmodelModel SubmodelProps ManipulatorModel MpModel MpSpec DecompForest GmProofs IcmProofs DpProofs ManipulatorProofs ManipulatorProps TentacleModel TentacleSpec TentaclePeel TentacleComp TentacleGmt.
#[local] Arguments nth_error : simpl never.

(** ** Combination over a list *)
Section Big.
Variable T : Type.
Variable OP : oper T.
Variable fin : T -> Prop.
Hypothesis OL : op_laws fin OP.
Definition bl {A : Type} (l : list A) (f : A -> T) : T := fold_right (fun a acc => o_op OP (f a) acc) (o_neutral OP) l.
Lemma bl_fin : forall A (l : list A) f, (forall a, In a l -> fin (f a)) -> fin (bl l f).
Proof. intros A l f H. induction l as [|a l IH]; cbn; [apply (ol_neutral _ _ OL)|]. apply (ol_op _ _ OL); [apply H; left; auto|apply IH; intros; apply H; right; auto]. Qed.
Lemma bl_ext : forall A (l : list A) f h, (forall a, In a l -> f a = h a) -> bl l f = bl l h.
Proof. intros A l f h H. induction l as [|a l IH]; auto. cbn [bl fold_right]. rewrite H by (left; auto). f_equal. apply IH. intros; apply H; right; auto. Qed.
Lemma bl_app : forall A (l1 l2 : list A) f, (forall a, In a (l1 ++ l2) -> fin (f a)) -> bl (l1 ++ l2) f = o_op OP (bl l1 f) (bl l2 f).
Proof.
  intros A l1 l2 f. induction l1 as [|a l1 IH]; intros H; cbn [app].
  - cbn [bl fold_right]. rewrite (ol_unit _ _ OL); auto. apply bl_fin. auto.
  - cbn [bl fold_right]. change (fold_right (fun a acc => o_op OP (f a) acc) (o_neutral OP) (l1 ++ l2)) with (bl (l1 ++ l2) f). change (fold_right (fun a acc => o_op OP (f a) acc) (o_neutral OP) l1) with (bl l1 f). rewrite IH by (intros; apply H; right; auto).
    apply (ol_assoc _ _ OL); [apply H; left; auto| |]; apply bl_fin; intros; apply H; right; apply in_or_app; auto.
Qed.
Lemma fold_bl : forall A (l : list A) f a, fin a -> (forall x, In x l -> fin (f x)) -> fold_left (fun acc x => o_op OP (f x) acc) l a = o_op OP (bl l f) a.
Proof.
  intros A l f. induction l as [|x l IH]; intros a HA H; cbn [fold_left].
  - cbn. rewrite (ol_unit _ _ OL); auto.
  - assert (fin (f x)) by (apply H; left; auto). assert (HL : forall y, In y l -> fin (f y)) by (intros; apply H; right; auto). pose proof (bl_fin _ l f HL). rewrite IH; [|apply (ol_op _ _ OL); auto|auto]. cbn [bl fold_right]. change (fold_right (fun a acc => o_op OP (f a) acc) (o_neutral OP) l) with (bl l f).
    rewrite (ol_assoc _ _ OL) by auto. rewrite (ol_comm _ _ OL (bl l f) (f x)) by auto. auto.
Qed.
Lemma total_bl : forall (gm : gmv T) z, fin_gmv fin gm -> labeling gm z -> total OP gm z = bl (v_factors gm) (fun fc => snd fc (at_vars z (fst fc))).
Proof.
  intros gm z FG HZ. unfold fin_gmv in FG. rewrite Forall_forall in FG. unfold total. rewrite fold_bl; [|apply (ol_neutral _ _ OL)|intros; apply FG; auto].
  rewrite (ol_comm _ _ OL); [apply (ol_unit _ _ OL)| |apply (ol_neutral _ _ OL)]; apply bl_fin; intros; apply FG; auto.
Qed.
Lemma bl_map : forall A B (l : list A) (h : A -> B) f, bl (map h l) f = bl l (fun a => f (h a)).
Proof. intros A B l h f. induction l as [|a l IH]; auto. cbn. f_equal. apply IH. Qed.
End Big.

(** ** The reduced model *)
Section Reduced.
Variable T : Type.
Variable OP : oper T.
Variable fin : T -> Prop.
Hypothesis OL : op_laws fin OP.
Variable g : gmv T.
Hypothesis W : wf_gmv g.
Hypothesis FG : fin_gmv fin g.
Notation n := (length (v_labels g)).
Notation nf := (length (v_factors g)).
Definition kept_factors (tn : list bool) : list (list nat * (list nat -> T)) := map snd (filter (fun p => negb (fst p)) (combine tn (v_factors g))).
Definition root_value (t : tent T) (l : nat) : T := nth l (t_fun t) (o_neutral OP).
Definition root_factor (t : tent T) : list nat * (list nat -> T) := ([t_root t], fun l => nth (nth 0 l 0) (t_fun t) (o_neutral OP)).
Definition reduced (tn : list bool) (ts : list (tent T)) : gmv T := mkGmv (v_labels g) (kept_factors tn ++ map root_factor ts).
Definition kept (tn : list bool) : list nat := filter (fun k => negb (nth k tn false)) (seq 0 nf).
Lemma kept_big : forall tn z, length tn = nf -> bl T OP (kept_factors tn) (fun fc => snd fc (at_vars z (fst fc))) = big T OP (kept tn) (fun k => val T OP g k z).
Proof.
  intros tn z L. unfold kept_factors, kept, val.
  assert (G : forall tn fs a (h : nat -> T), length tn = length fs -> (forall i fc, nth_error fs i = Some fc -> h (a + i) = snd fc (at_vars z (fst fc))) ->
    bl T OP (map snd (filter (fun p => negb (fst p)) (combine tn fs))) (fun fc => snd fc (at_vars z (fst fc))) = big T OP (filter (fun k => negb (nth (k - a) tn false)) (seq a (length fs))) h).
  { clear. induction tn as [|b tn IH]; intros [|fc fs] a h L H; try discriminate; auto. cbn [combine length seq filter fst]. rewrite Nat.sub_diag. cbn [nth].
    assert (E : bl T OP (map snd (filter (fun p => negb (fst p)) (combine tn fs))) (fun fc => snd fc (at_vars z (fst fc))) = big T OP (filter (fun k => negb (nth (k - a) (b :: tn) false)) (seq (S a) (length fs))) h).
    { rewrite (IH fs (S a) h); [|cbn in L; lia|]. 
      - f_equal. apply filter_ext_in. intros k Hk. apply in_seq in Hk. replace (k - a) with (S (k - S a)) by lia. auto.
      - intros i fc' E. replace (S a + i) with (a + S i) by lia. apply H. auto. }
    destruct b; cbn [negb]; auto. cbn [map]. rewrite big_cons. cbn [bl fold_right]. cbn [snd]. f_equal; [rewrite <- (H 0 fc eq_refl), Nat.add_0_r; auto|exact E]. }
  rewrite (G tn (v_factors g) 0 (fun k => match nth_error (v_factors g) k with Some fc => snd fc (at_vars z (fst fc)) | None => o_neutral OP end)); auto.
  - f_equal. apply filter_ext. intros k. rewrite Nat.sub_0_r. auto.
  - intros i fc E. cbn [Nat.add]. rewrite E. auto.
Qed.
Lemma kept_In : forall tn fc, In fc (kept_factors tn) -> In fc (v_factors g).
Proof. intros tn fc H. apply in_map_iff in H. destruct H as ((b & fc') & <- & H). apply filter_In in H. destruct H as [H _]. apply in_combine_r in H. auto. Qed.
(** A root exists and its function has a value for each label. *)
Definition root_ok (t : tent T) : Prop := t_root t < n /\ length (t_fun t) = nth (t_root t) (v_labels g) 0 /\ Forall fin (t_fun t).
Lemma reduced_wf : forall tn ts, Forall root_ok ts -> wf_gmv (reduced tn ts).
Proof.
  intros tn ts H. destruct W as [W1 W2]. split; auto. cbn [reduced v_labels v_factors]. rewrite Forall_forall in *. intros fc Hfc. apply in_app_iff in Hfc. destruct Hfc as [Hfc|Hfc].
  - apply W1. eapply kept_In; eauto.
  - apply in_map_iff in Hfc. destruct Hfc as (t & <- & Ht). destruct (H t Ht) as [A _]. cbn [root_factor fst]. split; repeat constructor. auto.
Qed.
Lemma root_fin : forall t z, root_ok t -> labeling g z -> fin (root_value t (nth (t_root t) z 0)).
Proof.
  intros t z (A & B & D) HZ. unfold root_value. rewrite Forall_forall in D. apply D. apply nth_In. rewrite B. apply Forall2_nth_lt; auto.
Qed.
Lemma reduced_fin : forall tn ts, Forall root_ok ts -> fin_gmv fin (reduced tn ts).
Proof.
  intros tn ts H. unfold fin_gmv in *. rewrite Forall_forall in *. cbn [reduced v_factors]. intros fc Hfc z HZ. apply in_app_iff in Hfc. destruct Hfc as [Hfc|Hfc].
  - apply FG; auto. eapply kept_In; eauto.
  - apply in_map_iff in Hfc. destruct Hfc as (t & <- & Ht). apply (root_fin t z); auto.
Qed.
Lemma reduced_total : forall tn ts z, length tn = nf -> Forall root_ok ts -> labeling g z ->
  total OP (reduced tn ts) z = o_op OP (big T OP (kept tn) (fun k => val T OP g k z)) (bl T OP ts (fun t => root_value t (nth (t_root t) z 0))).
Proof.
  intros tn ts z L H HZ. pose proof (reduced_fin tn ts H) as RF. rewrite (total_bl T OP fin OL) by auto. cbn [reduced v_factors]. rewrite (bl_app T OP fin OL).
  - rewrite kept_big, bl_map by auto. auto.
  - intros fc Hfc. unfold fin_gmv in RF. rewrite Forall_forall in RF. apply RF; auto.
Qed.
End Reduced.
