(** C22 (serialization), C25 (sparse functions), C36 (values and sizes of functions). *)
From Verif Require Import Base ShapeSpec ShapeProofs IndexingModel FunctionsModel FunctionsSpec FunctionsProofs.

Definition any {A : Type} (_ : A) : Prop := True.

(** C22 *)
Lemma fn2_round : forall T (ft : ftype T (fn2 T)),
  ft_dimension ft = (fun _ => 2) -> ft_shape ft = fn2_shape T -> ft_size ft = fn2_size T ->
  ft_indexSequenceSize ft = (fun _ => 2) -> ft_valueSequenceSize ft = (fun _ => 2) ->
  ft_serialize ft = fn2_serialize T -> ft_deserialize ft = fn2_deserialize T ->
  (forall f x y, exists v, ft_call ft f [x; y] = Ret v) -> round_trips ft any any.
Proof.
  intros T ft H1 H2 H3 H4 H5 H6 H7 H8 f dst sh _ _ [HD HS]. rewrite H6. exists [f_n1 f; f_n2 f], [f_a f; f_b f].
  split; auto. rewrite H4, H5. split; auto. split; auto. intros ix' vs'. rewrite H7. exists f. split. { destruct f; auto. }
  split. { split; auto. } do 3 (split; [auto|]). intros c Hc. assert (L := in_shape_length _ _ Hc). rewrite <- HD, H1 in L.
  destruct c as [|x [|y [|]]]; cbn in L; try lia. destruct (H8 f x y) as [v Hv]. exists v; auto.
Qed.
Theorem C22_potts : forall T, round_trips (potts T) any any.
Proof. intros T. apply fn2_round; auto. intros f x y. eexists; reflexivity. Qed.
Theorem C22_truncated_absolute : forall T (N : num T), round_trips (truncabs T N) any any.
Proof. intros T N. apply fn2_round; auto. intros f x y. eexists; reflexivity. Qed.
Theorem C22_truncated_squared : forall T (N : num T), round_trips (truncsq T N) any any.
Proof. intros T N. apply fn2_round; auto. intros f x y. eexists; reflexivity. Qed.
Theorem C22_squared_difference : forall T (N : num T), round_trips (sqdiff T N) any any.
Proof.
  intros T N f dst sh _ _ [HD HS]. exists [g_n1 f; g_n2 f], [g_w f]. split; auto. split; auto. split; auto. intros ix' vs'. exists f.
  split. { destruct f; auto. } split. { split; auto. } do 3 (split; [auto|]). intros c Hc. assert (L := in_shape_length _ _ Hc). rewrite <- HD in L.
  destruct c as [|x [|y [|]]]; cbn in L; try lia. eexists; split; reflexivity.
Qed.
(** The scale is written as the value at (0,1), so w * |0-1| has to be w. *)
Theorem C22_absolute_difference : forall T (N : num T), (forall w, n_mul N w (n_abs N (n_sub N (n_of N 0) (n_of N 1))) = w) ->
  round_trips (absdiff T N) any any.
Proof.
  intros T N HN f dst sh _ _ [HD HS]. exists [g_n1 f; g_n2 f], [g_w f]. split. { cbn. rewrite HN. auto. } split; auto. split; auto.
  intros ix' vs'. exists f. split. { destruct f; auto. } split. { split; auto. } do 3 (split; [auto|]). intros c Hc. assert (L := in_shape_length _ _ Hc). rewrite <- HD in L.
  destruct c as [|x [|y [|]]]; cbn in L; try lia. eexists; split; reflexivity.
Qed.
Theorem C22_absolute_difference_Z : round_trips (absdiff Z num_Z) any any.
Proof. apply C22_absolute_difference. intros w. cbn. lia. Qed.

Definition pottsn_made {T} (f : pottsn T) : Prop := exists sh a b, sh <> [] /\ f = pottsn_new T sh a b.
Lemma pottsn_call_spec : forall T sh (a b : T) c, sh <> [] -> in_shape sh c ->
  pottsn_call T (pottsn_new T sh a b) c = Ret (if forallb (fun x => x =? nth 0 c 0) c then a else b).
Proof.
  intros T sh a b c Hs Hc. apply in_shape_length in Hc. destruct c as [|x0 c]. { destruct sh; [contradiction|]; discriminate. }
  unfold pottsn_call. rewrite rd_hd. cbn [bind pn_shape pottsn_new pn_eq pn_ne nth]. rewrite <- Hc.
  assert (G : forall post pre acc, foldM (fun (eq : bool) i => if eq then x <- rd (pre ++ post) i ;; Ret (x =? x0) else Ret false) (seq (length pre) (length post)) acc
    = Ret (acc && forallb (fun x => x =? x0) post)).
  { induction post as [|p post IH]; intros pre acc; cbn [length seq foldM forallb]. { rewrite andb_true_r; auto. }
    specialize (IH (pre ++ [p])). rewrite <- app_assoc in IH. cbn [app] in IH. rewrite app_length in IH. cbn [length] in IH. rewrite Nat.add_1_r in IH.
    destruct acc; cbn [bind andb].
    - rewrite (rd_Ret _ _ _ p) by (rewrite nth_error_app2, Nat.sub_diag; auto). cbn [bind]. apply IH.
    - rewrite IH. auto. }
  specialize (G (x0 :: c) [] true). cbn [app] in G. change (length []) with 0 in G. rewrite G. auto.
Qed.
Theorem C22_pottsn : forall T, round_trips (pottsN T) pottsn_made any.
Proof.
  intros T f dst sh (s & a & b & Hs & ->) _ HS. apply (has_shape_list T _ (pottsN T) _ s) in HS; auto. subst sh.
  exists (length s :: s), [a; b]. split. { cbn -[pottsn_serialize]. unfold pottsn_serialize. cbn [pn_shape pottsn_new]. rewrite mapM_rd_all. auto. }
  split. { cbn. lia. } split; auto. intros ix' vs'. exists (pottsn_new T s a b). split.
  { cbn [ft_deserialize pottsN]. unfold pottsn_deserialize. cbn [app]. rewrite rd_hd. cbn [bind]. rewrite mapM_rd_S. auto. }
  split. { apply (has_shape_list T _ (pottsN T) _ s); auto. } do 3 (split; [auto|]). intros c Hc. eexists; split; apply pottsn_call_spec; auto.
Qed.
Definition const_made {T} (f : constf T) : Prop := exists sh v, f = const_new T sh v.
Theorem C22_constant : forall T, round_trips (constant T) const_made any.
Proof.
  intros T f dst sh (s & a & ->) _ HS. apply (has_shape_list T _ (constant T) _ s) in HS; auto. subst sh.
  exists (length s :: s), [a]. split. { cbn -[const_serialize]. unfold const_serialize. cbn [cn_shape const_new]. rewrite mapM_rd_all. auto. }
  split. { cbn. lia. } split; auto. intros ix' vs'. exists (const_new T s a). split.
  { cbn [ft_deserialize constant]. unfold const_deserialize. cbn [app]. rewrite !rd_hd. cbn [bind]. rewrite mapM_rd_S. auto. }
  split. { apply (has_shape_list T _ (constant T) _ s); auto. } do 3 (split; [auto|]). intros c Hc. eexists; split; reflexivity.
Qed.
Definition explicit_made {T} (f : explicitf T) : Prop := length (ex_data f) = size_of (ex_shape f).
Lemma explicit_call_spec : forall T (f : explicitf T) c, explicit_made f -> in_shape (ex_shape f) c ->
  exists v, nth_error (ex_data f) (index_of (ex_shape f) c) = Some v /\ explicit_call T f c = Ret v.
Proof.
  intros T f c HM Hc. pose proof (index_of_lt _ _ Hc) as HI. red in HM. rewrite <- HM in HI.
  destruct (nth_error (ex_data f) (index_of (ex_shape f) c)) as [v|] eqn:E; [|apply nth_error_None in E; lia]. exists v. split; auto.
  unfold explicit_call. rewrite <- (in_shape_length _ _ Hc), mapM_rd_all. cbn. apply rd_Ret; auto.
Qed.
Theorem C22_explicit : forall T, round_trips (explicit T) explicit_made any.
Proof.
  intros T f dst sh HM _ HS. apply (has_shape_list T _ (explicit T) _ (ex_shape f)) in HS; auto. subst sh.
  exists (length (ex_shape f) :: ex_shape f), (ex_data f). split.
  { cbn [ft_serialize explicit]. unfold explicit_serialize. rewrite !mapM_rd_all. destruct f as [[|s sh] d]; cbn; auto.
    red in HM. cbn in HM. destruct d as [|x [|]]; cbn in HM; try lia. auto. }
  split. { cbn. lia. } split; auto. intros ix' vs'. exists f. split.
  { cbn [ft_deserialize explicit]. unfold explicit_deserialize. cbn [app]. rewrite rd_hd. cbn [bind]. rewrite mapM_rd_S. cbn [bind]. red in HM. rewrite <- HM, mapM_rd_front.
    destruct f as [[|s sh] d]; cbn; auto. cbn in HM. destruct d as [|x [|]]; cbn in HM; try lia. auto. }
  split. { apply (has_shape_list T _ (explicit T) _ (ex_shape f)); auto. } do 3 (split; [auto|]). intros c Hc.
  destruct (explicit_call_spec T f c HM Hc) as (v & _ & Hv). exists v. auto.
Qed.
Theorem C22_static_single_site : forall T SIZE, round_trips (staticsite T SIZE) (fun f => length f = SIZE) (fun f => length f = SIZE).
Proof.
  intros T SIZE f dst sh Hf Hd [HD HS]. exists [], f. cbn in HD. split.
  { cbn [ft_serialize staticsite]. unfold static_serialize, static_call. rewrite (mapM_ext _ _ _ (rd f)) by auto. rewrite <- Hf, mapM_rd_all. auto. }
  split; auto. split; auto. intros ix' vs'. exists f. split.
  { cbn [ft_deserialize staticsite]. unfold static_deserialize.
    assert (G : forall p q d, length q = length d -> foldM (fun f i => v <- rd ((p ++ q) ++ vs') i ;; wr f i v) (seq (length p) (length q)) (p ++ d) = Ret (p ++ q)).
    { intros p q. revert p. induction q as [|x q IH]; intros p [|y d] HL; cbn in HL; try lia; cbn [length seq foldM]; auto.
      rewrite (rd_Ret _ _ _ x) by (rewrite <- app_assoc, nth_error_app2, Nat.sub_diag; auto). cbn [bind]. rewrite wr_Ret by (rewrite app_length; cbn; lia). cbn [bind].
      specialize (IH (p ++ [x]) d). rewrite <- !app_assoc in IH. cbn [app] in IH. rewrite app_length in IH. cbn [length] in IH. rewrite Nat.add_1_r in IH.
      replace (upd (p ++ y :: d) (length p) x) with (p ++ x :: d).
      - rewrite <- app_assoc. apply IH. lia.
      - clear. induction p; cbn; auto. f_equal; auto. }
    specialize (G [] f dst). cbn [app] in G. change (length []) with 0 in G. rewrite Hf in G. rewrite G; auto; lia. }
  split. { split; auto. } do 3 (split; [auto|]). intros c Hc. destruct sh as [|s [|]]; cbn in HD; try lia. specialize (HS 0 ltac:(cbn; lia)). cbn in HS. injection HS as HS.
  inversion Hc as [|x y c0 l Hx Hc0]; subst. inversion Hc0; subst. destruct (nth_error f x) as [v|] eqn:E; [|apply nth_error_None in E; lia].
  exists v. cbn. unfold static_call. cbn. rewrite (rd_Ret _ _ _ _ E). auto.
Qed.
(** A sparse function made by insertions at coordinates in its shape. *)
Definition sparse_made {T} (f : sparsef T) : Prop := exists sh d ins, Forall (in_shape sh) (map fst ins) /\ sparse_run sh d ins = Ret f.
Theorem C22_sparse : forall T, round_trips (sparse T) sparse_made any.
Proof.
  intros T f dst sh (s & d & ins & HI & R) _ HS. destruct (sparse_run_spec T s d ins HI) as (f' & R' & (W1 & W2 & W3) & SK & V). rewrite R in R'. injection R' as <-.
  apply (has_shape_list T _ (sparse T) _ (sp_shape f)) in HS; auto. rewrite W1 in HS. subst sh.
  exists (length s :: s ++ length (sp_map f) :: map fst (sp_map f)), (d :: map snd (sp_map f)). split.
  { cbn [ft_serialize sparse]. unfold sparse_serialize. rewrite mapM_rd_all, W1, W3. auto. }
  split. { cbn. rewrite app_length, W1. cbn. rewrite map_length. lia. } split. { cbn. rewrite map_length. lia. }
  intros ix' vs'. exists f. split.
  { cbn [ft_deserialize sparse]. unfold sparse_deserialize. cbn [app]. rewrite !rd_hd. cbn [bind]. rewrite <- app_assoc, mapM_rd_S. cbn [bind app].
    rewrite (rd_Ret _ _ _ (length (sp_map f))) by (cbn [nth_error]; rewrite nth_error_app2, Nat.sub_diag by lia; auto). cbn [bind].
    cbv zeta.
    pose proof (map_rebuild T (sp_map f) [] (fun i => rd (length s :: s ++ length (sp_map f) :: map fst (sp_map f) ++ ix') (S (S (length s)) + i)) (fun i => rd (d :: map snd (sp_map f) ++ vs') (S i)) SK) as B.
    change (length []) with 0 in B. change (sp_map (sparse_new T s d)) with (@nil (nat * T)). cbn [app] in B. rewrite B.
    - cbn [bind]. rewrite sparse_new_strides. cbn. destruct f; cbn in *; subst; auto.
    - intros i p Hp. split; apply rd_Ret.
      + change (nth_error (s ++ length (sp_map f) :: map fst (sp_map f) ++ ix') (S (length s + i)) = Some (fst p)). rewrite nth_error_app2 by lia. replace (S (length s + i) - length s) with (S i) by lia. cbn [nth_error]. apply map_nth_error with (f := fst) in Hp. rewrite nth_error_app1; auto. apply nth_error_Some; congruence.
      + cbn [nth_error]. apply map_nth_error with (f := snd) in Hp. rewrite nth_error_app1; auto. apply nth_error_Some; congruence. }
  split. { apply (has_shape_list T _ (sparse T) _ (sp_shape f)); auto. } do 3 (split; [auto|]). intros c Hc. exists (inserted d ins c). split; eapply (sparse_call_spec T s d ins f c); eauto.
Qed.
Print Assumptions C22_potts. Print Assumptions C22_truncated_absolute. Print Assumptions C22_truncated_squared.
Print Assumptions C22_squared_difference. Print Assumptions C22_absolute_difference. Print Assumptions C22_absolute_difference_Z.
Print Assumptions C22_pottsn. Print Assumptions C22_constant. Print Assumptions C22_explicit. Print Assumptions C22_static_single_site. Print Assumptions C22_sparse.

(** Function types or objects that do not come back. *)
Theorem C22_dynamic_single_site_refuted : ~ round_trips (dynamicsite Z 0%Z) (fun f => f <> []) any.
Proof.
  intros H. destruct (H [5%Z; 7%Z] [] [2]) as (ix & vs & S & L & _). { discriminate. } { exact I. } { split; auto. intros [|i] Hi; cbn in *; auto; lia. }
  cbn in S. injection S as <- <-. discriminate.
Qed.
(** Default constructed functions have size 0 before and 1 after. *)
Theorem C22_default_refuted :
  (exists ix vs f', ft_serialize (pottsN Z) (pottsn_default Z 0%Z) = Ret (ix, vs) /\ ft_deserialize (pottsN Z) ix vs (pottsn_default Z 0%Z) = Ret f' /\
     ft_size (pottsN Z) (pottsn_default Z 0%Z) = 0%Z /\ ft_size (pottsN Z) f' = 1%Z) /\
  (exists ix vs f', ft_serialize (constant Z) (const_default Z 0%Z) = Ret (ix, vs) /\ ft_deserialize (constant Z) ix vs (const_default Z 0%Z) = Ret f' /\
     ft_size (constant Z) (const_default Z 0%Z) = 0%Z /\ ft_size (constant Z) f' = 1%Z) /\
  ft_serialize (explicit Z) (mkExplicit [] []) = Undef.
Proof.
  split; [|split; [|reflexivity]].
  - exists [0], [0%Z; 0%Z], (pottsn_new Z [] 0%Z 0%Z). repeat split; reflexivity.
  - exists [0], [0%Z], (const_new Z [] 0%Z). repeat split; reflexivity.
Qed.
Print Assumptions C22_dynamic_single_site_refuted. Print Assumptions C22_default_refuted.

Example C22_explicit_case : let f := mkExplicit [2; 3] [1; 2; 3; 4; 5; 6]%Z in explicit_made f /\ has_shape (explicit Z) f [2; 3] /\
  ft_serialize (explicit Z) f = Ret ([2; 2; 3], [1; 2; 3; 4; 5; 6]%Z) /\ ft_deserialize (explicit Z) [2; 2; 3; 9] [1; 2; 3; 4; 5; 6; 9]%Z (mkExplicit [] []) = Ret f.
Proof. split; [reflexivity|]. split; [|split; vm_compute; reflexivity]. split; auto. intros [|[|i]] Hi; cbn in *; auto; lia. Qed.
Example C22_sparse_case : exists f, sparse_run [2; 3] 0%Z [([1; 2], 7%Z); ([1; 0], 4%Z)] = Ret f /\ sparse_made f /\
  ft_serialize (sparse Z) f = Ret ([2; 2; 3; 2; 1; 5], [0; 4; 7]%Z) /\ ft_deserialize (sparse Z) [2; 2; 3; 2; 1; 5] [0; 4; 7]%Z (sparse_new Z [] 3%Z) = Ret f.
Proof.
  eexists. split; [vm_compute; reflexivity|]. split; [|split; vm_compute; reflexivity].
  exists [2; 3], 0%Z, [([1; 2], 7%Z); ([1; 0], 4%Z)]. split; [|vm_compute; reflexivity]. repeat constructor.
Qed.
Example C22_pottsn_case : pottsn_made (pottsn_new Z [2; 3; 2] 0%Z 5%Z) /\ const_made (const_new Z [4; 3] 5%Z) /\
  ft_serialize (pottsN Z) (pottsn_new Z [2; 3; 2] 0%Z 5%Z) = Ret ([3; 2; 3; 2], [0; 5]%Z) /\ ft_call (pottsN Z) (pottsn_new Z [2; 3; 2] 0%Z 5%Z) [1; 2; 1] = Ret 5%Z.
Proof. split; [exists [2; 3; 2], 0%Z, 5%Z; split; [discriminate|auto]|]. split; [exists [4; 3], 5%Z; auto|]. split; vm_compute; reflexivity. Qed.

(** C25: A sparse function returns, at each coordinate, the value first inserted there and otherwise its default value; its keys number
    the coordinates, and both conversions between keys and coordinates are each other's inverse. *)
Theorem C25_sparse_function : forall T sh (d : T) ins, Forall (in_shape sh) (map fst ins) ->
  exists f, sparse_run sh d ins = Ret f /\ has_shape (sparse T) f sh /\ ft_size (sparse T) f = Z.of_nat (size_of sh) /\ sp_default f = d /\
    (forall c, in_shape sh c -> ft_call (sparse T) f c = Ret (inserted d ins c)) /\
    (forall c buf, in_shape sh c -> length buf = length sh ->
       exists k, coordinateToKey T f c = Ret k /\ k < size_of sh /\ keyToCoordinate T f k buf = Ret c) /\
    (forall k buf, positive sh -> k < size_of sh -> length buf = length sh ->
       exists c, keyToCoordinate T f k buf = Ret c /\ in_shape sh c /\ coordinateToKey T f c = Ret k).
Proof.
  intros T sh d ins H. destruct (sparse_run_spec T sh d ins H) as (f & R & W & S & V). exists f. split; auto. pose proof W as (W1 & W2 & W3).
  split. { apply (has_shape_list T _ (sparse T) _ (sp_shape f)); auto. }
  split. { cbn. unfold sparse_size. rewrite W1. f_equal. unfold size_of. apply fold_symmetric; lia. }
  split; auto. split. { intros c Hc. eapply sparse_call_spec; eauto. }
  split.
  - intros c buf Hc HL. exists (index_of sh c). split. { eapply key_index0; eauto. } split. { apply index_of_lt; auto. }
    rewrite (key_coordinate T sh d f); auto. + rewrite coord_of_index; auto. + clear - Hc. induction Hc; constructor; auto; lia. + apply index_of_lt; auto.
  - intros k buf HP HK HL. exists (coord_of sh k). split. { eapply key_coordinate; eauto. } split. { apply coord_of_in_shape; auto. }
    rewrite (key_index0 T sh d f); auto. { rewrite index_of_coord; auto. } apply coord_of_in_shape; auto.
Qed.
(** A second insertion at the same coordinate has no effect. *)
Theorem C25_last_insertion_refuted : exists sh (d v1 v2 : Z) c f, v1 <> v2 /\ in_shape sh c /\ sparse_run sh d [(c, v1); (c, v2)] = Ret f /\ ft_call (sparse Z) f c = Ret v1.
Proof. exists [2; 2], 0%Z, 3%Z, 4%Z, [1; 0]. eexists. split; [lia|]. split; [repeat constructor|]. split; vm_compute; reflexivity. Qed.
Print Assumptions C25_sparse_function. Print Assumptions C25_last_insertion_refuted.
Example C25_case : let ins := [([2; 1; 3], 7%Z); ([0; 1; 0], 4%Z); ([2; 1; 3], 9%Z)] in Forall (in_shape [3; 2; 4]) (map fst ins) /\
  exists f, sparse_run [3; 2; 4] (-1)%Z ins = Ret f /\ ft_call (sparse Z) f [2; 1; 3] = Ret 7%Z /\ ft_call (sparse Z) f [0; 1; 0] = Ret 4%Z /\ ft_call (sparse Z) f [1; 1; 0] = Ret (-1)%Z /\
  coordinateToKey Z f [2; 1; 3] = Ret 23 /\ keyToCoordinate Z f 23 [0; 0; 0] = Ret [2; 1; 3].
Proof. split; [repeat constructor|]. eexists. split; [vm_compute; reflexivity|]. repeat split; vm_compute; reflexivity. Qed.

(** C36: Values at the coordinates of the shape. *)
Theorem C36_pairwise_values : forall n1 n2 x y (a b w : Z),
  ft_call (potts Z) (mkFn2 n1 n2 a b) [x; y] = Ret (if Nat.eq_dec x y then a else b) /\
  ft_call (absdiff Z num_Z) (mkFn1 n1 n2 w) [x; y] = Ret (w * Z.abs (Z.of_nat x - Z.of_nat y))%Z /\
  ft_call (sqdiff Z num_Z) (mkFn1 n1 n2 w) [x; y] = Ret (w * (Z.of_nat x - Z.of_nat y) ^ 2)%Z /\
  ft_call (truncabs Z num_Z) (mkFn2 n1 n2 a w) [x; y] = Ret (Z.min a (Z.abs (Z.of_nat x - Z.of_nat y)) * w)%Z /\
  ft_call (truncsq Z num_Z) (mkFn2 n1 n2 a w) [x; y] = Ret (Z.min a ((Z.of_nat x - Z.of_nat y) ^ 2) * w)%Z.
Proof.
  intros n1 n2 x y a b w. cbn -[Z.pow]. split; [|split; [|split; [|split]]]; f_equal; try lia.
  - destruct (Nat.eq_dec x y) as [->|E]; [rewrite Nat.eqb_refl; auto|]. apply Nat.eqb_neq in E. rewrite E. auto.
  - destruct (Z.ltb_spec a (Z.abs (Z.of_nat x - Z.of_nat y))); lia.
  - rewrite Z.pow_2_r. destruct (Z.ltb_spec a ((Z.of_nat x - Z.of_nat y) * (Z.of_nat x - Z.of_nat y))); nia.
Qed.
Lemma forallb_first : forall c, (forallb (fun x => x =? nth 0 c 0) c = true <-> forall i j, i < length c -> j < length c -> nth i c 0 = nth j c 0).
Proof.
  intros c. rewrite forallb_forall. split; intros H.
  - intros i j Hi Hj. assert (A := H _ (nth_In c 0 Hi)). assert (B := H _ (nth_In c 0 Hj)). apply Nat.eqb_eq in A, B. congruence.
  - intros x Hx. apply Nat.eqb_eq. apply In_nth with (d := 0) in Hx. destruct Hx as (i & Hi & <-). apply H; auto. lia.
Qed.
Theorem C36_pottsn_values : forall T sh (a b : T) c, sh <> [] -> in_shape sh c -> exists v, ft_call (pottsN T) (pottsn_new T sh a b) c = Ret v /\
  ((forall i j, i < length c -> j < length c -> nth i c 0 = nth j c 0) -> v = a) /\
  (forall i j, i < length c -> j < length c -> nth i c 0 <> nth j c 0 -> v = b).
Proof.
  intros T sh a b c Hs Hc. eexists; split; [apply pottsn_call_spec; auto|]. pose proof (forallb_first c) as H. destruct (forallb _ c); split; intros; auto.
  - exfalso. destruct H as [H _]. specialize (H eq_refl i j). auto.
  - destruct H as [_ H]. specialize (H H0). discriminate.
Qed.
Theorem C36_explicit_values : forall T (f : explicitf T) c, length (ex_data f) = size_of (ex_shape f) -> in_shape (ex_shape f) c ->
  exists v, ft_call (explicit T) f c = Ret v /\ nth_error (ex_data f) (index_of (ex_shape f) c) = Some v.
Proof. intros T f c H Hc. destruct (explicit_call_spec T f c H Hc) as (v & H1 & H2). exists v; auto. Qed.

(** The size reported by constant and N-ary Potts functions is the number of label tuples as long as that is below 2^31. *)
Lemma accumulate_size_spec : forall sh, positive sh -> (Z.of_nat (size_of sh) < 2 ^ 31)%Z -> accumulate_size sh = Z.of_nat (size_of sh).
Proof.
  intros sh HP HB. unfold accumulate_size.
  assert (TS : forall z, (0 <= z < 2 ^ 31)%Z -> to_size z = z). { intros z H. unfold to_size. apply Z.mod_small. lia. }
  assert (TI : forall z, (0 <= z < 2 ^ 31)%Z -> to_int z = z). { intros z H. unfold to_int. rewrite Z.mod_small by lia. lia. }
  assert (G : forall sh acc, positive sh -> (0 < acc)%Z -> (acc * Z.of_nat (size_of sh) < 2 ^ 31)%Z ->
     fold_left (fun acc s => to_int (to_size (to_size acc * Z.of_nat s))) sh acc = (acc * Z.of_nat (size_of sh))%Z).
  { clear - TS TI. induction sh as [|s sh IH]; intros acc HP HA HB; cbn [fold_left]. { unfold size_of; cbn; lia. }
    apply Forall_cons_iff in HP. destruct HP as [Hs HP]. pose proof (size_of_pos sh HP).
    assert (E : size_of (s :: sh) = s * size_of sh) by reflexivity. rewrite E, Nat2Z.inj_mul in *.
    assert (A1 : (acc < 2 ^ 31)%Z) by nia. assert (A2 : (acc * Z.of_nat s < 2 ^ 31)%Z) by nia.
    rewrite (TS acc), (TS (acc * _)%Z), (TI (acc * _)%Z) by nia. rewrite IH; auto; nia. }
  rewrite (G sh 1%Z HP) by lia. rewrite TS; lia.
Qed.
Theorem C36_size : forall T sh (a b : T), positive sh -> (Z.of_nat (size_of sh) < 2 ^ 31)%Z ->
  ft_size (pottsN T) (pottsn_new T sh a b) = Z.of_nat (size_of sh) /\ ft_size (constant T) (const_new T sh a) = Z.of_nat (size_of sh).
Proof. intros T sh a b HP HB. split; apply accumulate_size_spec; auto. Qed.
(** With 32 binary variables size() is 0. *)
Theorem C36_size_refuted : ft_size (pottsN Z) (pottsn_new Z (repeat 2 32) 0%Z 1%Z) = 0%Z /\ ft_size (constant Z) (const_new Z (repeat 2 32) 0%Z) = 0%Z /\ positive (repeat 2 32).
Proof. split; [vm_compute; reflexivity|]. split; [vm_compute; reflexivity|]. apply Forall_forall. intros x Hx. apply repeat_spec in Hx. lia. Qed.
Print Assumptions C36_pairwise_values. Print Assumptions C36_pottsn_values. Print Assumptions C36_explicit_values. Print Assumptions C36_size. Print Assumptions C36_size_refuted.
Example C36_case : in_shape [2; 3; 2] [1; 1; 1] /\ ft_call (pottsN Z) (pottsn_new Z [2; 3; 2] 4%Z 5%Z) [1; 1; 1] = Ret 4%Z /\
  ft_call (pottsN Z) (pottsn_new Z [2; 3; 2] 4%Z 5%Z) [1; 2; 1] = Ret 5%Z /\ ft_size (pottsN Z) (pottsn_new Z [2; 3; 2] 4%Z 5%Z) = 12%Z.
Proof. split; [repeat constructor|]. repeat split; vm_compute; reflexivity. Qed.
