(** C32 (label spaces) and C27 (function identifiers). *)
From Coq Require Import NArith.
From Verif Require Import Base SpacesModel.
Open Scope N_scope.

(** * Specification *)

(** A space presents the label counts [ls]: as many variables as [ls] has entries and, for
    each of them, the count listed. *)
Definition presents (s : space) (ls : list N) : Prop :=
  numberOfVariables s = Ret (N.of_nat (length ls)) /\
  forall i c, nth_error ls i = Some c -> numberOfLabels s (N.of_nat i) = Ret c.

(** What a client expects from a history of calls: the label counts and the answers. *)
Definition expected_any (st : list N * list response) (o : space_op) : list N * list response :=
  match o with
  | OAdd n => (fst st ++ [n], snd st ++ [Index (N.of_nat (length (fst st)))])
  | OAssignDense ls => (ls, snd st ++ [Done])
  end.

(** The same for a space that can only hold the label count [c] for all variables: an
    addVariable with another count is answered by an exception and changes nothing. *)
Definition expected_const (st : (N * list N) * list response) (o : space_op) : (N * list N) * list response :=
  let c := fst (fst st) in
  let ls := snd (fst st) in
  match o with
  | OAdd n =>
      if n =? c then ((c, ls ++ [n]), snd st ++ [Index (N.of_nat (length ls))])
      else (fst st, snd st ++ [Thrown])
  | OAssignDense l => ((hd 0 l, l), snd st ++ [Done])
  end.

(** assignDense on a space with one common label count: a non-empty constant sequence. *)
Definition const_op (o : space_op) : Prop :=
  match o with OAdd _ => True | OAssignDense l => l <> [] /\ forall x, In x l -> x = hd 0 l end.

Definition all_equal (ls : list N) : Prop := forall x y, In x ls -> In y ls -> x = y.

(** Fewer than 2^64 variables are ever added. *)
Definition op_size (o : space_op) : N :=
  match o with OAdd _ => 1 | OAssignDense l => N.of_nat (length l) end.
Definition total_size (ops : list space_op) : N := fold_right N.add 0 (map op_size ops).

(** * Proofs *)

Lemma nth_error_rd : forall A (l : list A) i a, nth_error l i = Some a -> rd l i = Ret a.
Proof. intros A l i a H. unfold rd. rewrite H. reflexivity. Qed.

Lemma discrete_presents : forall ls, presents (Discrete ls) ls.
Proof.
  intros ls. split; [reflexivity|]. intros i c H. cbn. unfold rdN. rewrite Nnat.Nat2N.id.
  apply nth_error_rd. exact H.
Qed.

Lemma discrete_run : forall ops ls rs,
  foldM space_step ops (Discrete ls, rs) =
  Ret (Discrete (fst (fold_left expected_any ops (ls, rs))), snd (fold_left expected_any ops (ls, rs))).
Proof.
  induction ops as [|o ops IH]; intros ls rs; [reflexivity|].
  destruct o as [n|l]; cbn [foldM space_step fst snd addVariable assignDense bind fold_left expected_any]; apply IH.
Qed.

Theorem C32_discrete : forall (ls0 : list N) (ops : list space_op),
  exists s ls rs,
    space_run ops (Discrete ls0) = Ret (s, rs) /\
    fold_left expected_any ops (ls0, []) = (ls, rs) /\
    presents s ls.
Proof.
  intros ls0 ops. unfold space_run. rewrite discrete_run.
  destruct (fold_left expected_any ops (ls0, [])) as [ls rs] eqn:E. cbn [fst snd].
  exists (Discrete ls), ls, rs. split; [reflexivity|]. split; [reflexivity|]. apply discrete_presents.
Qed.
Print Assumptions C32_discrete.
Example C32_discrete_example :
  space_run [OAdd 3; OAdd 2; OAssignDense [4; 4; 1]; OAdd 7] discrete0
  = Ret (Discrete [4; 4; 1; 7], [Index 0; Index 1; Done; Index 3]).
Proof. vm_compute. reflexivity. Qed.

Lemma simple_presents : forall nv c ls, nv = N.of_nat (length ls) -> (forall x, In x ls -> x = c) ->
  presents (Simple nv c) ls.
Proof.
  intros nv c ls -> H. split; [reflexivity|]. intros i d E. cbn. rewrite (H d); [reflexivity|].
  apply nth_error_In in E. exact E.
Qed.

Lemma simple_run : forall ops c ls rs,
  (forall x, In x ls -> x = c) ->
  Forall const_op ops -> N.of_nat (length ls) + total_size ops < 2 ^ 64 ->
  exists c' ls', 
    foldM space_step ops (Simple (N.of_nat (length ls)) c, rs) =
      Ret (Simple (N.of_nat (length ls')) c', snd (fold_left expected_const ops ((c, ls), rs))) /\
    fst (fold_left expected_const ops ((c, ls), rs)) = (c', ls') /\
    (forall x, In x ls' -> x = c').
Proof.
  induction ops as [|o ops IH]; intros c ls rs HC HO HS.
  - exists c, ls. split; [reflexivity|]. split; [reflexivity|exact HC].
  - apply Forall_cons_iff in HO. destruct HO as [Ho HO].
    unfold total_size in HS. cbn [map fold_right] in HS. fold (total_size ops) in HS.
    destruct o as [n|l]; cbn [foldM space_step fst snd addVariable assignDense fold_left expected_const] in *.
    + cbn [op_size] in HS. destruct (N.eqb_spec n c) as [->|Hn]; cbn [negb bind].
      * replace (w64 (N.of_nat (length ls) + 1)) with (N.of_nat (length (ls ++ [c]))).
        2:{ unfold w64. rewrite app_length. cbn [length]. rewrite N.mod_small; lia. }
        apply IH; [|exact HO|rewrite app_length; cbn [length]; lia].
        intros x Hx. apply in_app_or in Hx. destruct Hx as [Hx|[Hx|[]]]; auto.
      * apply IH; [exact HC|exact HO|lia].
    + cbn [op_size] in HS. destruct Ho as [Hne Hc]. destruct l as [|l0 l]; [contradiction|].
      cbn [rd nth_error bind hd] in *.
      assert (F : forallb (fun x => l0 =? x) (l0 :: l) = true).
      { apply forallb_forall. intros x Hx. apply N.eqb_eq. symmetry. apply Hc. exact Hx. }
      rewrite F. cbn [bind]. apply IH; [exact Hc|exact HO|lia].
Qed.

(** SimpleDiscreteSpace: every history of addVariable (with any count) and of assignDense with
    non-empty constant sequences. *)
Theorem C32_simple : forall (n0 c0 : N) (ops : list space_op),
  Forall const_op ops -> n0 + total_size ops < 2 ^ 64 ->
  exists s c ls rs,
    space_run ops (simple_assign n0 c0) = Ret (s, rs) /\
    fold_left expected_const ops ((c0, repeat c0 (N.to_nat n0)), []) = ((c, ls), rs) /\
    presents s ls.
Proof.
  intros n0 c0 ops HO HS.
  destruct (simple_run ops c0 (repeat c0 (N.to_nat n0)) []) as [c' [ls' [E [F G]]]].
  - intros x Hx. apply repeat_spec in Hx. exact Hx.
  - exact HO.
  - rewrite repeat_length, Nnat.N2Nat.id. exact HS.
  - rewrite repeat_length, Nnat.N2Nat.id in E.
    exists (Simple (N.of_nat (length ls')) c'), c', ls', (snd (fold_left expected_const ops (c0, repeat c0 (N.to_nat n0), []))).
    split; [exact E|]. split.
    + rewrite <- F. destruct (fold_left _ ops _); reflexivity.
    + apply simple_presents; [reflexivity|exact G].
Qed.
Print Assumptions C32_simple.
Example C32_simple_example :
  space_run [OAdd 3; OAdd 2; OAssignDense [4; 4]; OAdd 4] (simple_assign 5 3)
  = Ret (Simple 3 4, [Index 5; Thrown; Done; Index 2]) /\
  Forall const_op [OAdd 3; OAdd 2; OAssignDense [4; 4]; OAdd 4].
Proof.
  split; [vm_compute; reflexivity|]. repeat constructor; try discriminate.
  cbn. intros x [H|[H|[]]]; congruence.
Qed.

(** A rejected assignDense is not without effect: the space afterwards is neither the old one nor
    the requested one. *)
Theorem C32_simple_assignDense_refuted : exists s ls s',
  presents s [2; 2] /\ assignDense s ls = Ret (s', Thrown) /\
  ~ presents s' [2; 2] /\ ~ presents s' ls.
Proof.
  exists (Simple 2 2), [3; 3; 4], (Simple 3 3).
  split; [apply simple_presents; [reflexivity|]; cbn; intros x [H|[H|[]]]; congruence|].
  split; [reflexivity|]. split; intros [A B].
  - vm_compute in A. discriminate.
  - specialize (B 2%nat 4 eq_refl). vm_compute in B. discriminate.
Qed.
Print Assumptions C32_simple_assignDense_refuted.

(** ... and an empty sequence is dereferenced. *)
Theorem C32_simple_assignDense_empty_refuted : forall nv c, assignDense (Simple nv c) [] = Undef.
Proof. reflexivity. Qed.
Print Assumptions C32_simple_assignDense_empty_refuted.

(** GridSpace: x*y variables, as long as that number fits the index type; it cannot be extended. *)
Theorem C32_grid : forall x y c : N, x * y < 2 ^ 64 ->
  presents (grid_assign x y c) (repeat c (N.to_nat (x * y))) /\
  (forall n, addVariable (grid_assign x y c) n = Ret (grid_assign x y c, Thrown)) /\
  (forall ls, assignDense (grid_assign x y c) ls = Ret (grid_assign x y c, Thrown)).
Proof.
  intros x y c H. split; [|split; reflexivity]. split.
  - cbn. unfold w64. rewrite N.mod_small by exact H. rewrite repeat_length, Nnat.N2Nat.id. reflexivity.
  - intros i d E. apply nth_error_In in E. apply repeat_spec in E. subst. reflexivity.
Qed.
Print Assumptions C32_grid.

(** VectorViewSpace and ViewSpace present what they refer to. *)
Theorem C32_views : forall (s : space) (ls : list N),
  presents (VectorView (Some ls)) ls /\
  (forall n, addVariable (VectorView (Some ls)) n = Ret (VectorView (Some ls), Thrown)) /\
  (presents s ls -> presents (View (Some s)) ls).
Proof.
  intros s ls. split; [exact (discrete_presents ls)|]. split; [reflexivity|]. intros H. exact H.
Qed.
Print Assumptions C32_views.

(** ViewSpace::addVariable builds an exception object but does not throw it. *)
Theorem C32_view_add_refuted : forall s n, addVariable (View s) n = Undef.
Proof. reflexivity. Qed.
Print Assumptions C32_view_add_refuted.

(** StaticSimpleDiscreteSpace: adding a variable with the right label count has no defined result,
    and assignDense records the label count as the number of variables. *)
Theorem C32_static_refuted :
  (forall c nv, addVariable (StaticSimple c nv) c = Undef) /\
  exists c nv ls s', assignDense (StaticSimple c nv) ls = Ret (s', Done) /\ ~ presents s' ls.
Proof.
  split.
  - intros c nv. cbn. rewrite N.eqb_refl. reflexivity.
  - exists 2, 0, [2; 2; 2], (StaticSimple 2 2). split; [reflexivity|]. intros [A _]. vm_compute in A. discriminate.
Qed.
Print Assumptions C32_static_refuted.

(** isSimpleSpace *)
Lemma isSimple_loop_spec : forall s l k i (ls : list N),
  length ls = k -> (forall j c, nth_error ls j = Some c -> numberOfLabels s (i + N.of_nat j) = Ret c) ->
  exists b, isSimple_loop s l k i = Ret b /\ (b = true <-> forall x, In x ls -> x = l).
Proof.
  intros s l k. induction k as [|k IH]; intros i ls HL H.
  - destruct ls; [|discriminate]. exists true. split; [reflexivity|]. split; [intros _ x []|reflexivity].
  - destruct ls as [|a ls]; [discriminate|]. cbn [length] in HL. injection HL as HL.
    cbn [isSimple_loop]. specialize (H 0%nat a eq_refl) as H0. rewrite N.add_0_r in H0. rewrite H0. cbn [bind].
    destruct (N.eqb_spec l a) as [->|Hn]; cbn [negb].
    + destruct (IH (i + 1) ls HL) as [b [Eb Hb]].
      { intros j c Hj. replace (i + 1 + N.of_nat j) with (i + N.of_nat (S j)) by lia. apply H. exact Hj. }
      exists b. split; [exact Eb|]. rewrite Hb. split.
      * intros A x [Hx|Hx]; [congruence|auto].
      * intros A x Hx. apply A. right. exact Hx.
    + exists false. split; [reflexivity|]. split; [discriminate|]. intros A. exfalso. apply Hn. symmetry. apply A. left. reflexivity.
Qed.

Theorem C32_isSimpleSpace : forall (s : space) (ls : list N), presents s ls -> ls <> [] ->
  exists b, isSimpleSpace s = Ret b /\ (b = true <-> all_equal ls).
Proof.
  intros s ls [HV HL] Hne.
  assert (G : exists b, (nv <- numberOfVariables s ;; l <- numberOfLabels s 0 ;;
                         isSimple_loop s l (N.to_nat nv - 1) 1) = Ret b /\ (b = true <-> all_equal ls)).
  { rewrite HV. cbn [bind]. destruct ls as [|a ls]; [contradiction|].
    specialize (HL 0%nat a eq_refl) as H0. change (N.of_nat 0) with 0 in H0. rewrite H0. cbn [bind].
    destruct (isSimple_loop_spec s a (length ls) 1 ls eq_refl) as [b [Eb Hb]].
    { intros j c Hj. replace (1 + N.of_nat j) with (N.of_nat (S j)) by lia. apply HL. exact Hj. }
    exists b. split.
    - rewrite Nnat.Nat2N.id. cbn [length]. replace (S (length ls) - 1)%nat with (length ls) by lia. exact Eb.
    - rewrite Hb. split.
      + intros A x y [Hx|Hx] [Hy|Hy]; subst; try reflexivity.
        * symmetry. auto.
        * auto.
        * rewrite (A x Hx), (A y Hy). reflexivity.
      + intros A x Hx. apply A; [right; exact Hx|left; reflexivity]. }
  assert (EQ : forall c, (forall i, numberOfLabels s i = Ret c) -> all_equal ls).
  { intros c Hc x y Hx Hy. apply In_nth_error in Hx. apply In_nth_error in Hy.
    destruct Hx as [i Hi], Hy as [j Hj]. apply HL in Hi. apply HL in Hj. rewrite Hc in Hi, Hj. congruence. }
  destruct s as [l|nv c|x y c|lab nv|o|o]; try exact G.
  - exists true. split; [reflexivity|]. split; [intros _; apply (EQ c); reflexivity|reflexivity].
  - exists true. split; [reflexivity|]. split; [intros _; apply (EQ c); reflexivity|reflexivity].
  - exists true. split; [reflexivity|]. split; [intros _; apply (EQ lab); reflexivity|reflexivity].
Qed.
Print Assumptions C32_isSimpleSpace.
Example C32_isSimpleSpace_example :
  isSimpleSpace (Discrete [3; 3; 3]) = Ret true /\ isSimpleSpace (Discrete [3; 3; 2]) = Ret false /\
  isSimpleSpace (View (Some (VectorView (Some [3; 2; 3])))) = Ret false.
Proof. vm_compute. auto. Qed.

(** Asking an empty DiscreteSpace reads the label count of a variable that does not exist. *)
Theorem C32_isSimpleSpace_empty_refuted : presents discrete0 [] /\ isSimpleSpace discrete0 = Undef.
Proof. split; [apply discrete_presents|reflexivity]. Qed.
Print Assumptions C32_isSimpleSpace_empty_refuted.

(** * C27 *)

(** What holds: == is identity; among identifiers of one function type, < and > are mutually
    converse strict total orders; and any two different identifiers are related by <. *)
Theorem C27_identifiers_partial :
  (forall a b, fid_eq a b = true <-> a = b) /\
  (forall a b, fid_gt a b = fid_lt b a) /\
  (forall a b, fid_ge a b = fid_le b a) /\
  (forall a, fid_lt a a = false) /\
  (forall a b, a <> b -> fid_lt a b = true \/ fid_lt b a = true) /\
  (forall a b c, functionType a = functionType b -> functionType b = functionType c ->
     fid_lt a b = true -> fid_lt b c = true -> fid_lt a c = true) /\
  (forall a b, functionType a = functionType b -> fid_lt a b = true -> fid_lt b a = false).
Proof.
  assert (EQ : forall a b, fid_eq a b = true <-> a = b).
  { intros [i t] [j u]. unfold fid_eq. cbn. rewrite andb_true_iff, !N.eqb_eq. split.
    - intros [-> ->]. reflexivity.
    - intros H. injection H. auto. }
  split; [exact EQ|]. split; [reflexivity|]. split; [reflexivity|].
  unfold fid_lt. split; [intros a; rewrite !N.ltb_irrefl; reflexivity|].
  split; [|split].
  - intros [i t] [j u] Hn. cbn.
    destruct (N.ltb_spec t u); [left; reflexivity|]. destruct (N.ltb_spec u t); [right; reflexivity|].
    assert (t = u) by lia. subst. destruct (N.ltb_spec i j); [left; reflexivity|].
    right. apply N.ltb_lt. assert (i <> j) by congruence. lia.
  - intros a b c -> ->. rewrite !N.ltb_irrefl, !N.ltb_lt. lia.
  - intros a b ->. rewrite !N.ltb_irrefl, N.ltb_lt. intros H. apply N.ltb_ge. lia.
Qed.
Print Assumptions C27_identifiers_partial.
Example C27_example :
  fid_lt {| functionIndex := 1; functionType := 4 |} {| functionIndex := 2; functionType := 4 |} = true.
Proof. reflexivity. Qed.

(** < is not an order across function types: two identifiers are each less than the other. *)
Theorem C27_lt_refuted : exists a b, fid_lt a b = true /\ fid_lt b a = true /\ fid_gt a b = true /\ fid_eq a b = false.
Proof.
  exists {| functionIndex := 1; functionType := 0 |}, {| functionIndex := 0; functionType := 1 |}.
  vm_compute. auto.
Qed.
Print Assumptions C27_lt_refuted.

(** < is not transitive either. *)
Theorem C27_lt_trans_refuted : exists a b c, fid_lt a b = true /\ fid_lt b c = true /\ fid_lt a c = false.
Proof.
  exists {| functionIndex := 2; functionType := 0 |}, {| functionIndex := 0; functionType := 1 |},
         {| functionIndex := 1; functionType := 0 |}.
  vm_compute. auto.
Qed.
Print Assumptions C27_lt_trans_refuted.

(** Within one function type, <= and >= hold of every pair. *)
Theorem C27_le_refuted :
  (forall a b, functionType a = functionType b -> fid_le a b = true /\ fid_ge a b = true) /\
  exists a b, fid_le a b = true /\ fid_lt a b = false /\ fid_eq a b = false.
Proof.
  split.
  - intros a b E. unfold fid_le, fid_ge. rewrite E, N.leb_refl. auto.
  - exists {| functionIndex := 1; functionType := 0 |}, {| functionIndex := 0; functionType := 0 |}. vm_compute. auto.
Qed.
Print Assumptions C27_le_refuted.
