(** Proofs about Swendsen-Wang sampling: the value of the probability of an edge. *)
From Coq Require Import QArith Qcanon Sorting.Sorted Permutation.
From Verif Require GmProofs.
From Verif Require Import Base Values GmView GmViewSpec GmViewProofs ShapeSpec ShapeProofs MovemakerModel MovemakerSpec MovemakerProofs IcmModel IcmProofs PartitionModel ConstraintModel HoeProofs TentacleSim GgSpec GgProofs SwModel SwSpec SwEdge.
Open Scope nat_scope.

Lemma sumq_perm : forall a b, Permutation a b -> sumq a = sumq b.
Proof. intros a b P. unfold sumq. induction P; cbn [fold_right]; auto; [rewrite IHP; auto|ring|congruence]. Qed.
Lemma filter_map : forall (A B : Type) (f : A -> B) (P : B -> bool) l, map f (filter (fun a => P (f a)) l) = filter P (map f l).
Proof. intros A B f P. induction l as [|a l IH]; auto. cbn. destruct (P (f a)); cbn; rewrite IH; auto. Qed.
Lemma nth_all : forall (A : Type) (d : A) l, map (fun k => nth k l d) (seq 0 (length l)) = l.
Proof.
  intros A d l. apply (nth_ext _ _ d d); [rewrite map_length, seq_length; auto|]. intros k Hk. rewrite map_length, seq_length in Hk.
  rewrite (nth_indep _ d (nth 0 l d)) by (rewrite map_length, seq_length; auto). change (nth 0 l d) with ((fun k => nth k l d) 0). rewrite map_nth, seq_nth by auto. auto.
Qed.

Section Proofs.
Variable T : Type.
Variable OP : oper T.
Variable fin : T -> Prop.
Hypothesis OL : op_laws fin OP.
Variable prob : T -> Qc.
Variable g : gmv T.
Hypothesis W : wf_gmv g.
Hypothesis FG : fin_gmv fin g.
Notation n := (length (v_labels g)).
Variable par : swpar.
Let d : list nat * (list nat -> T) := ([], fun _ => o_neutral OP).

Lemma evaluate_fold : forall F x, labeling g x -> (forall k, In k F -> k < length (v_factors g)) -> forall a,
  foldM (fun acc f => fc <- rd (v_factors g) f ;; v <- fvalue T fc x ;; Ret (o_op OP v acc)) F a =
  Ret (fold_left (fun acc fc => o_op OP (snd fc (at_vars x (fst fc))) acc) (map (fun k => nth k (v_factors g) d) F) a).
Proof.
  intros F x LX. induction F as [|k F IH]; intros HB a; auto. cbn [foldM map fold_left]. assert (Hk : k < length (v_factors g)) by (apply HB; left; auto). rewrite (rd_nth _ _ k d) by auto. cbn [bind].
  rewrite fvalue_Ret. { cbn [bind]. apply IH. intros; apply HB; right; auto. } rewrite (labeling_length _ g x LX). apply (wf_nth _ _ k _ W). apply nth_error_nth'. auto.
Qed.
Lemma local_evaluate : forall u v x, u < n -> v < n -> labeling g x -> evaluateFactors T OP g (sunion (sunion [] (v_adj T g u)) (v_adj T g v)) x = Ret (local_value OP g u v x).
Proof.
  intros u v x Hu Hv LX. destruct (local_ok T g W u v Hu Hv) as (factors & conn & EF & SF & IF & _). rewrite EF. unfold evaluateFactors.
  rewrite evaluate_fold by (auto; intros k H; apply IF in H; destruct H; eapply adj_lt; eauto). f_equal. unfold local_value, total. cbn [v_factors]. f_equal.
  assert (E : factors = filter (fun k => (fun fc : list nat * (list nat -> T) => member u (fst fc) || member v (fst fc)) (nth k (v_factors g) d)) (seq 0 (length (v_factors g)))).
  { apply GmProofs.sorted_ext; auto. { apply (filter_seq_sorted T g). } intros k. rewrite IF, filter_In, in_seq, !(v_adj_spec T g). split.
    - intros H. assert (K : k < length (v_factors g)) by (destruct H as [(fc & E & _)|(fc & E & _)]; apply nth_error_Some; congruence). split; [lia|]. apply orb_true_iff. rewrite !member_In.
      destruct H as [(fc & E & I)|(fc & E & I)]; rewrite (nth_error_nth _ _ _ E); auto.
    - intros [K H]. apply orb_true_iff in H. rewrite !member_In in H. assert (E : nth_error (v_factors g) k = Some (nth k (v_factors g) d)) by (apply nth_error_nth'; lia). destruct H as [H|H]; eauto. }
  rewrite E at 1. rewrite (filter_map _ _ (fun k => nth k (v_factors g) d) (fun fc => member u (fst fc) || member v (fst fc))), nth_all. auto.
Qed.
Lemma sums_value : forall u v conn l p, u < n -> v < n -> Forall (fun w => w < n) conn ->
  let X := map (fun k => sw_scatter T g conn (coord_of (labels_of g conn) k)) l in
  sums T OP prob g (sunion (sunion [] (v_adj T g u)) (v_adj T g v)) conn (labels_of g conn) u v l p =
  Ret ((fst p + sumq (map (fun x => prob (local_value OP g u v x)) (filter (fun x => Nat.eqb (nth u x O) (nth v x O)) X)))%Qc, (snd p + sumq (map (fun x => prob (local_value OP g u v x)) (filter (fun x => negb (Nat.eqb (nth u x O) (nth v x O))) X)))%Qc).
Proof.
  intros u v conn l. induction l as [|k l IH]; intros p Hu Hv FC X; unfold sums; cbn [foldM]. { unfold X. cbn. destruct p as [a b]. cbn [fst snd]. rewrite !Qcplus_0_r. auto. }
  pose proof (scatter_labeling T g W conn k FC) as LX. pose proof (labeling_length _ g _ LX) as LL. cbv zeta. rewrite local_evaluate by auto. cbn [bind]. rewrite !(rd_nth _ _ _ 0) by lia. cbn [bind].
  match goal with |- foldM ?f l ?q = _ => change (foldM f l q) with (sums T OP prob g (sunion (sunion [] (v_adj T g u)) (v_adj T g v)) conn (labels_of g conn) u v l q) end. rewrite IH by auto.
  unfold X. cbn [map filter]. destruct (_ =? _); cbn [negb map fst snd]; unfold sumq; cbn [fold_right]; f_equal; f_equal; ring.
Qed.
Lemma enumerated : forall u v conn L, u < n -> v < n -> Forall (fun w => w < n) conn -> StronglySorted lt conn ->
  (forall w, In w conn <-> exists k fc, (In k (v_adj T g u) \/ In k (v_adj T g v)) /\ nth_error (v_factors g) k = Some fc /\ In w (fst fc)) -> local_labelings g u v L ->
  Permutation L (map (fun k => sw_scatter T g conn (coord_of (labels_of g conn) k)) (seq 0 (size_of (labels_of g conn)))).
Proof.
  intros u v conn L Hu Hv FC SC IC [ND HL]. pose proof (sorted_nodup _ SC) as NC.
  assert (PO : positive (labels_of g conn)). { unfold positive, labels_of. rewrite Forall_map. rewrite Forall_forall in *. intros. apply (pos_nth T g W). auto. }
  assert (CI : forall w, In w conn <-> exists fc, In fc (v_factors g) /\ In w (fst fc) /\ (In u (fst fc) \/ In v (fst fc))).
  { intros w. rewrite IC. split.
    - intros (k & fc & H & E & I). exists fc. split; [eapply nth_error_In; eauto|]. split; auto. rewrite !(v_adj_spec T g) in H. destruct H as [(fc' & E' & I')|(fc' & E' & I')]; rewrite E in E'; injection E' as <-; auto.
    - intros (fc & IF & I & H). destruct (In_nth_error _ _ IF) as (k & E). exists k, fc. split; auto. rewrite !(v_adj_spec T g). destruct H; eauto. }
  assert (LC : forall k, length (coord_of (labels_of g conn) k) = length conn) by (intros; rewrite coord_of_length; unfold labels_of; apply map_length).
  assert (AT : forall k, map (fun w => nth w (sw_scatter T g conn (coord_of (labels_of g conn) k)) 0) conn = coord_of (labels_of g conn) k).
  { intros k. change (sw_scatter T g conn (coord_of (labels_of g conn) k)) with (relabel (repeat 0 n) conn (coord_of (labels_of g conn) k)). apply relabel_at; auto. rewrite repeat_length. auto. }
  apply NoDup_Permutation; auto.
  - assert (G : forall l, NoDup l -> (forall k, In k l -> k < size_of (labels_of g conn)) -> NoDup (map (fun k => sw_scatter T g conn (coord_of (labels_of g conn) k)) l)).
    { induction l as [|k l IH]; intros N B; cbn; constructor; inversion N; subst; [|apply IH; auto; intros; apply B; right; auto]. intros H. apply in_map_iff in H. destruct H as (k' & E & H). apply H1. assert (EC : coord_of (labels_of g conn) k' = coord_of (labels_of g conn) k) by (rewrite <- (AT k), <- (AT k'), E; auto).
      apply (f_equal (index_of (labels_of g conn))) in EC. rewrite !index_of_coord in EC; auto; [subst; auto|apply B; left; auto|apply B; right; auto]. }
    apply G; [apply seq_NoDup|]. intros k Hk. apply in_seq in Hk. lia.
  - intros x. rewrite HL, in_map_iff. split.
    + intros [LX OFF]. pose proof (labeling_length _ g x LX) as LL. assert (IS : in_shape (labels_of g conn) (at_vars x conn)).
      { unfold in_shape, labels_of, at_vars. apply Forall2_map_lt. intros w Hw. rewrite Forall_forall in FC. specialize (FC w Hw). apply (AStarSearch.in_shape_lt _ _ w LX FC). }
      exists (index_of (labels_of g conn) (at_vars x conn)). split.
      * rewrite coord_of_index by auto. change (relabel (repeat 0 n) conn (at_vars x conn) = x). apply relabel_back; auto. { rewrite LL. auto. } { rewrite repeat_length. auto. }
        intros w Hw. rewrite nth_repeat. destruct (Nat.eq_dec (nth w x 0) 0) as [->|NZ]; auto. exfalso. apply Hw. apply CI. auto.
      * apply in_seq. split; [lia|]. apply index_of_lt. auto.
    + intros (k & <- & Hk). split; [apply scatter_labeling; auto|]. intros w NZ. apply CI. destruct (in_dec Nat.eq_dec w conn) as [|N]; auto. exfalso. apply NZ. change (nth w (relabel (repeat 0 n) conn (coord_of (labels_of g conn) k)) 0 = 0). rewrite relabel_off by auto. apply nth_repeat.
Qed.
Notation weight := (local_weight OP prob g).
Lemma edge_value : forall u v L, u < n -> v < n -> local_labelings g u v L ->
  let all := weight u v L any_label in
  let equal := weight u v L (same_label u v) in
  let unequal := weight u v L (other_label u v) in
  sw_edge T OP prob g par u v = if Qc_eq_dec all 0%Qc then Throw else if Qc_lt (equal / all)%Qc (sp_lowest par) || Qc_lt (unequal / all)%Qc (sp_lowest par) then Throw else Ret (unequal / all)%Qc.
Proof.
  intros u v L Hu Hv LL. unfold sw_edge. destruct (local_ok T g W u v Hu Hv) as (factors & conn & EF & SF & IF & EC & SC & IC & FC). cbv zeta. unfold conn_step in EC. rewrite EC. cbn [bind]. rewrite mapM_labels by auto. cbn [bind].
  pose proof (sums_value u v conn (seq 0 (size_of (labels_of g conn))) (0, 0)%Qc Hu Hv FC) as SV. cbv zeta in SV. unfold sums in SV. cbv zeta in SV. rewrite SV. cbn [bind fst snd]. clear SV.
  pose proof (enumerated u v conn L Hu Hv FC SC IC LL) as PE. set (X := map (fun k => sw_scatter T g conn (coord_of (labels_of g conn) k)) (seq 0 (size_of (labels_of g conn)))) in *.
  assert (PF : forall P, sumq (map (fun x => prob (local_value OP g u v x)) (filter P X)) = weight u v L P).
  { intros P. unfold local_weight. apply sumq_perm. apply Permutation_map. symmetry. clear - PE. induction PE; cbn; auto; [destruct (P x); auto|destruct (P x), (P y); auto; constructor|etransitivity; eauto]. }
  rewrite !PF, !Qcplus_0_l. fold (same_label u v). change (fun x : list nat => negb (nth u x 0 =? nth v x 0)) with (other_label u v).
  assert (SP : (weight u v L (same_label u v) + weight u v L (other_label u v) = weight u v L any_label)%Qc).
  { unfold local_weight, other_label, same_label, any_label. clear. induction L as [|x L IH]; cbn [filter map]; [unfold sumq; cbn; ring|]. unfold sumq in *. destruct (_ =? _); cbn [negb map fold_right]; rewrite <- IH; ring. }
  change (fun x : list nat => nth u x 0 =? nth v x 0) with (same_label u v). rewrite SP. auto.
Qed.
Lemma enumerable : forall u v, u < n -> v < n -> exists L, local_labelings g u v L.
Proof.
  intros u v Hu Hv. exists (filter (fun x => forallb (fun w => (nth w x 0 =? 0) || existsb (fun fc => member w (fst fc) && (member u (fst fc) || member v (fst fc))) (v_factors g)) (seq 0 n)) (map (coord_of (v_labels g)) (seq 0 (size_of (v_labels g))))).
  assert (PO : positive (v_labels g)) by apply W. split.
  - apply NoDup_filter. assert (G : forall l, NoDup l -> (forall k, In k l -> k < size_of (v_labels g)) -> NoDup (map (coord_of (v_labels g)) l)).
    { induction l as [|k l IH]; intros N B; cbn; constructor; inversion N; subst; [|apply IH; auto; intros; apply B; right; auto]. intros H. apply in_map_iff in H. destruct H as (k' & E & H). apply H1.
      apply (f_equal (index_of (v_labels g))) in E. rewrite !index_of_coord in E; auto; [subst; auto|apply B; left; auto|apply B; right; auto]. }
    apply G; [apply seq_NoDup|]. intros k Hk. apply in_seq in Hk. lia.
  - intros x. rewrite filter_In, in_map_iff, forallb_forall. assert (Q : labeling g x <-> exists k, coord_of (v_labels g) k = x /\ In k (seq 0 (size_of (v_labels g)))).
    { split. - intros H. exists (index_of (v_labels g) x). split; [apply coord_of_index; auto|]. apply in_seq. pose proof (index_of_lt _ _ H). lia. - intros (k & <- & _). apply coord_of_in_shape. auto. }
    rewrite <- Q. split; intros [L H]; split; auto.
    + intros w NZ. assert (Hw : w < n). { rewrite <- (labeling_length _ g x L). destruct (Nat.lt_ge_cases w (length x)) as [Y|Y]; auto. rewrite nth_overflow in NZ by auto. contradiction. }
      specialize (H w). rewrite in_seq in H. assert (Z : (nth w x 0 =? 0) = false) by (apply Nat.eqb_neq; auto). rewrite Z in H. cbn [orb] in H. specialize (H ltac:(lia)). apply existsb_exists in H. destruct H as (fc & IF & H). apply andb_true_iff in H. rewrite orb_true_iff, !member_In in H. destruct H. eauto.
    + intros w _. destruct (nth w x 0 =? 0) eqn:Z; auto. apply Nat.eqb_neq in Z. destruct (H w Z) as (fc & IF & I & D). cbn [orb]. apply existsb_exists. exists fc. split; auto. apply andb_true_iff. rewrite orb_true_iff, !member_In. auto.
Qed.
Lemma edge_throw : forall u v, u < n -> v < n -> sw_edge T OP prob g par u v = Throw <-> too_unlikely OP prob g par u v.
Proof.
  intros u v Hu Hv. assert (G : forall L, local_labelings g u v L -> (sw_edge T OP prob g par u v = Throw <-> (let w := weight u v L in (w any_label = 0 \/ w (same_label u v) / w any_label < sp_lowest par \/ w (other_label u v) / w any_label < sp_lowest par)%Qc))).
  { intros L LL. rewrite (edge_value u v L) by auto. cbv zeta. destruct (Qc_eq_dec _ _) as [E|N]; [tauto|]. unfold Qc_lt. destruct (Qclt_le_dec (_ / _) _) as [A|A]; cbn [orb]; [tauto|]. destruct (Qclt_le_dec (_ / _) _) as [B|B]; [tauto|]. split; [discriminate|].
    intros [X|[X|X]]; [contradiction| |]; exfalso; eapply Qclt_not_le; eauto. }
  split. - intros E. destruct (enumerable u v Hu Hv) as (L & LL). exists L. split; auto. apply (G L LL). auto. - intros (L & LL & H). apply (G L LL). auto.
Qed.
End Proofs.
