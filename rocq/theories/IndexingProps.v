(** C09: the coordinate walkers. Vocabulary: [size_of], [in_shape], [positive], [coord_of]
    (ShapeSpec.v); [ssw_state], [projection] are restated below. *)
From Coq Require Import Sorted.
From Verif Require Import Base ShapeSpec ShapeProofs IndexingModel IndexingProofs.

(** ShapeWalker: the k-th state is the k-th coordinate in first-coordinate-fastest order, and the
    first size_of shape states are the coordinates of the shape, each exactly once. *)
Theorem C09_shape_walker : forall shape, positive shape ->
  (forall k, k < size_of shape -> sw_run shape (length shape) k = Ret (coord_of shape k)) /\
  (forall k, k < size_of shape -> in_shape shape (coord_of shape k)) /\
  (forall c, in_shape shape c -> exists k, k < size_of shape /\ sw_run shape (length shape) k = Ret c /\
     forall k', k' < size_of shape -> sw_run shape (length shape) k' = Ret c -> k' = k).
Proof.
  intros shape HP. split; [|split].
  - intros. apply sw_run_spec; auto.
  - intros. apply coord_of_in_shape; auto.
  - intros c Hc. exists (index_of shape c). pose proof (index_of_lt _ _ Hc) as B.
    rewrite sw_run_spec, coord_of_index by auto. split; auto. split; auto.
    intros k' Hk' E. rewrite sw_run_spec in E by auto. injection E as <-. symmetry. apply index_of_coord; auto.
Qed.
Print Assumptions C09_shape_walker.

(** ShapeWalkerSwitchedOrder: the same with the last coordinate fastest. *)
Theorem C09_switched_order : forall shape, positive shape ->
  (forall k, k < size_of shape -> so_run shape (length shape) k = Ret (rev (coord_of (rev shape) k))) /\
  (forall c, in_shape shape c -> exists k, k < size_of shape /\ so_run shape (length shape) k = Ret c /\
     forall k', k' < size_of shape -> so_run shape (length shape) k' = Ret c -> k' = k).
Proof.
  assert (R : forall shape c, in_shape shape c -> in_shape (rev shape) (rev c)).
  { intros shape c H. unfold in_shape in *. induction H; cbn; [constructor|]. apply Forall2_app; auto. }
  intros shape HP. split.
  - intros. apply so_run_spec; auto.
  - intros c Hc. apply R in Hc. exists (index_of (rev shape) (rev c)). pose proof (index_of_lt _ _ Hc) as B.
    rewrite size_of_rev in B. split; auto.
    rewrite so_run_spec, coord_of_index, rev_involutive by auto. split; auto.
    intros k' Hk' E. rewrite so_run_spec in E by auto. injection E as <-. rewrite rev_involutive.
    symmetry. apply index_of_coord; [apply positive_rev; auto|rewrite size_of_rev; auto].
Qed.
Print Assumptions C09_switched_order.

(** Incrementing a ShapeWalkerSwitchedOrder of dimension 0 accesses memory out of bounds. *)
Theorem C09_switched_order_dim0_refuted : so_next [] [] 0 = Undef.
Proof. reflexivity. Qed.

(** SubShapeWalker with sorted fixed positions: subSize() is the number of tuples agreeing with
    the fixed values; the k-th state has the fixed values at the fixed positions and the k-th
    coordinate of the remaining shape at the free positions; resetCoordinate restarts. *)
Theorem C09_sub_shape_walker : forall shape fi fv,
  positive shape -> StronglySorted lt fi -> length fv = length fi -> Forall (fun i => i < length shape) fi ->
  let free := filter (fun i => negb (existsb (Nat.eqb i) fi)) (seq 0 (length shape)) in
  let freeShape := map (fun i => nth i shape 0) free in
  ssw_subSize shape fi (length shape) = Ret (size_of freeShape) /\
  (forall k, k < size_of freeShape -> exists c, ssw_run shape fi fv (length shape) k = Ret c /\
     length c = length shape /\
     (forall j, j < length fi -> nth (nth j fi 0) c 0 = nth j fv 0) /\
     map (fun i => nth i c 0) free = coord_of freeShape k) /\
  (forall c, length c = length shape ->
     ssw_reset (length shape) fi fv c = ssw_init (length shape) fi fv).
Proof.
  intros shape fi fv HP HS HL HB free freeShape. split; [apply ssw_subSize_spec; auto|]. split.
  - intros k Hk. apply ssw_run_spec; auto.
  - intros c Hc. apply ssw_reset_spec; auto.
Qed.
Print Assumptions C09_sub_shape_walker.

(** With unsorted fixed positions the walker overwrites a fixed coordinate. *)
Theorem C09_sub_shape_walker_unsorted_refuted : exists shape fi fv k c,
  positive shape /\ NoDup fi /\ Forall (fun i => i < length shape) fi /\ length fv = length fi /\
  ssw_run shape fi fv (length shape) k = Ret c /\
  ~ (forall j, j < length fi -> nth (nth j fi 0) c 0 = nth j fv 0).
Proof.
  exists [2; 2; 2], [1; 0], [0; 0], 1, [0; 1; 0]. repeat split; try (repeat constructor; cbn; intuition lia).
  intros H. specialize (H 0 ltac:(cbn; lia)). discriminate.
Qed.
Print Assumptions C09_sub_shape_walker_unsorted_refuted.

(** DoubleShapeWalker: after any number k of increments the joint coordinate is the k-th one
    (starting over after the last) and the coordinate of A agrees with it on every common variable. *)
Theorem C09_double_shape_walker : forall shape viAB viA k,
  positive shape -> length viAB = length shape -> StronglySorted lt viAB -> StronglySorted lt viA ->
  exists cA, dsw_run shape viAB viA (length shape) k = Ret (coord_of shape (k mod size_of shape), cA) /\
    length cA = length viA /\
    forall i d, i < length viA -> d < length viAB -> nth i viA 0 = nth d viAB 0 ->
      nth i cA 0 = nth d (coord_of shape (k mod size_of shape)) 0.
Proof. intros. rewrite coord_of_mod by auto. apply dsw_run_spec; auto. Qed.
Print Assumptions C09_double_shape_walker.

(** TripleShapeWalker: the same for two sub-coordinates whose variables are among the joint ones. *)
Theorem C09_triple_shape_walker : forall shape viAB viA viB k,
  positive shape -> length viAB = length shape -> StronglySorted lt viAB -> StronglySorted lt viA ->
  StronglySorted lt viB -> incl viA viAB -> incl viB viAB ->
  exists cA cB, tsw_run shape viAB viA viB (length shape) k = Ret (coord_of shape (k mod size_of shape), cA, cB) /\
    (length cA = length viA /\
     forall i d, i < length viA -> d < length viAB -> nth i viA 0 = nth d viAB 0 ->
       nth i cA 0 = nth d (coord_of shape (k mod size_of shape)) 0) /\
    (length cB = length viB /\
     forall i d, i < length viB -> d < length viAB -> nth i viB 0 = nth d viAB 0 ->
       nth i cB 0 = nth d (coord_of shape (k mod size_of shape)) 0).
Proof. intros. rewrite coord_of_mod by auto. apply tsw_run_spec; auto. Qed.
Print Assumptions C09_triple_shape_walker.

(** isEqualValueVector decides whether all entries are equal. *)
Theorem C09_isEqualValueVector : forall v,
  isEqualValueVector v = true <-> (forall x y, In x v -> In y v -> x = y).
Proof. exact isEqualValueVector_spec. Qed.
Print Assumptions C09_isEqualValueVector.

(** Non-vacuity. *)
Example positive_example : positive [2; 3; 2].
Proof. repeat constructor. Qed.
Example sw_example : sw_run [2; 3; 2] 3 7 = Ret [1; 0; 1] /\ in_shape [2; 3; 2] [1; 0; 1] /\ 7 < size_of [2; 3; 2].
Proof. split; [vm_compute; reflexivity|]. split; [repeat constructor|cbn; lia]. Qed.
Example so_example : so_run [2; 3; 2] 3 7 = Ret [1; 0; 1] /\ so_run [2; 3; 2] 3 1 = Ret [0; 0; 1].
Proof. vm_compute. auto. Qed.
Example ssw_example : ssw_run [2; 3; 2; 2] [1; 3] [2; 1] 4 3 = Ret [1; 2; 1; 1] /\ ssw_subSize [2; 3; 2; 2] [1; 3] 4 = Ret 4 /\
  StronglySorted lt [1; 3] /\ Forall (fun i => i < 4) [1; 3].
Proof. split; [vm_compute; reflexivity|]. split; [vm_compute; reflexivity|]. split; repeat constructor. Qed.
Example dsw_example : dsw_run [2; 3; 2] [4; 6; 9] [6; 9] 3 9 = Ret ([1; 1; 1], [1; 1]).
Proof. vm_compute. reflexivity. Qed.
Example tsw_example : tsw_run [2; 3; 2] [4; 6; 9] [6; 9] [4; 6] 3 4 = Ret ([0; 2; 0], [2; 0], [0; 2]) /\ incl [6; 9] [4; 6; 9].
Proof. split; [vm_compute; reflexivity|]. intros x [<-|[<-|[]]]; cbn; auto. Qed.
