(** C43: a model that is saved and loaded again is the same model. *)
From Coq Require Import Sorted.
From Verif Require Import Base ShapeSpec Values FunctionsModel FunctionsSpec FunctionsProps GmModel Hdf5Model Hdf5Spec Hdf5Proofs.

(** Legal operations do not fail, so every legal history builds a model. *)
Theorem C43_build : forall T (N : num T) types m o, built T N types m -> legal T N types m o -> exists m', hstep m o = Ret m' /\ built T N types m'.
Proof.
  intros T N types m o B L. destruct (built_valid T N types m B) as [recs V]. destruct (valid_step T N types m recs o V L) as (m' & _ & E & _).
  exists m'. split; auto. eapply built_step; eauto.
Qed.

(** Every model with variables, built by legal operations over function types that have a non-empty serialization, can be saved, and
    loaded into an empty model whose type list contains these types in any order: label counts, factors, functions, the
    factors at each variable, the order and all energies come back. *)
Theorem C43_round_trip : forall T (N : num T) z vti types types' m,
  (forall w, n_mul N w (n_abs N (n_sub N (n_of N 0) (n_of N 1))) = w) ->
  NoDup types -> NoDup types' -> Forall storable types -> incl types types' -> built T N types m -> h_space m <> [] ->
  exists file m', h_save T N z vti types m = Ret file /\ h_load T N z types' (h_new types') file = Ret m' /\
    same_content T N types m types' m' /\ same_functions T N types m types' m' /\ h_adj m' = h_adj m /\ h_order m' = h_order m.
Proof.
  intros T N z vti types types' m HN ND ND' HS HI HB HV. destruct (built_valid T N types m HB) as [recs V].
  destruct (built_valid T N types' (h_new types') (built_new T N types')) as [recs0 V0].
  assert (R0 : recs0 = []). { pose proof (v_factors _ _ _ _ _ V0) as F. destruct recs0 as [|[[i t] vis] r]; [auto|discriminate]. } subst recs0.
  destruct (save_ok T N z vti HN types m recs V HV HS ND) as (gs & ES & GS).
  destruct (load_ok T N z vti types m recs types' (h_new types') [] gs V HS ND HI V0 GS) as (lookup & m' & FL & EL & E1 & E2 & E3 & E4 & E5 & E6 & E7).
  eexists. exists m'. split; [exact ES|]. split; [exact EL|]. split.
  { eapply content_ok with (funs0 := h_funs (h_new types')); eauto. cbn. apply map_length. }
  split; [|split].
  - intros t' k Hk. assert (H0 : nth_error (h_funs (h_new (T := T) types')) t' = Some []) by (cbn; rewrite nth_error_map, Hk; auto). destruct (E6 t' [] H0) as (fs' & Hfs & LD1 & LD2). exists fs'. split; auto. split.
    + intros NI. apply LD1. intros Hin. apply In_nth_error in Hin. destruct Hin as [i Hi]. destruct (Forall2_nth_r _ _ _ _ _ FL _ _ Hi) as (k' & K1 & _ & K2). rewrite Hk in K2. injection K2 as <-. apply NI. eapply nth_error_In; eauto.
    + intros t fs Ht Hf. destruct (Forall2_nth _ _ _ _ _ FL _ _ Ht) as (j & Hj & _ & Hj').
      assert (t' = j) as ->. { apply (proj1 (NoDup_nth_error types') ND'); [apply nth_error_Some; congruence|congruence]. }
      destruct (LD2 t k fs Hj Ht Hf) as [A B]. destruct fs as [|f fs]; [rewrite A; auto; constructor|]. apply B. discriminate.
  - eapply adj_ok_unique; [exact E7|exact (v_adj _ _ _ _ _ V)|]. intros v x. cbn. split; auto. intros [(r & Hr & _)|]; auto. destruct x; discriminate.
  - rewrite E4. cbn. auto.
Qed.

(** Loading into a model that is already in use replaces the labels and factors and computes the energies of the saved
    model; the order and the factors at a variable also keep what was there before. *)
Theorem C43_used_target : forall T (N : num T) z vti types types' m m0,
  (forall w, n_mul N w (n_abs N (n_sub N (n_of N 0) (n_of N 1))) = w) ->
  NoDup types -> Forall storable types -> incl types types' -> built T N types m -> h_space m <> [] -> built T N types' m0 ->
  exists file m', h_save T N z vti types m = Ret file /\ h_load T N z types' m0 file = Ret m' /\
    same_content T N types m types' m' /\ h_order m' = Nat.max (h_order m0) (h_order m) /\ length (h_adj m') = length (h_adj m) /\
    forall v s, nth_error (h_adj m) v = Some s -> exists s', nth_error (h_adj m') v = Some s' /\ StronglySorted lt s' /\ forall x, In x s' <-> In x s \/ In x (nth v (h_adj m0) []).
Proof.
  intros T N z vti types types' m m0 HN ND HS HI HB HV HB0. destruct (built_valid T N types m HB) as [recs V]. destruct (built_valid T N types' m0 HB0) as [recs0 V0].
  destruct (save_ok T N z vti HN types m recs V HV HS ND) as (gs & ES & GS).
  destruct (load_ok T N z vti types m recs types' m0 recs0 gs V HS ND HI V0 GS) as (lookup & m' & FL & EL & E1 & E2 & E3 & E4 & E5 & E6 & E7).
  eexists. exists m'. split; [exact ES|]. split; [exact EL|]. split.
  { eapply content_ok with (funs0 := h_funs m0); eauto. rewrite <- (Forall2_len _ _ _ _ _ (v_funs _ _ _ _ _ V0)). auto. }
  split; auto. destruct E7 as [L7 A7]. destruct (v_adj _ _ _ _ _ V) as [L A]. split; [congruence|].
  intros v s Hv. destruct (A v s Hv) as [_ M]. destruct (nth_error_lt _ (h_adj m') v) as [s' Hs']. { rewrite L7, <- L. apply nth_error_Some. congruence. }
  exists s'. split; auto. destruct (A7 v s' Hs') as [SS M']. split; auto. intros x. rewrite M', M. destruct (v_adj _ _ _ _ _ V0) as [L0 A0].
  destruct (nth_error (h_adj m0) v) as [s0|] eqn:E0.
  - rewrite (nth_error_nth _ _ _ E0). destruct (A0 v s0 E0) as [_ M0]. rewrite M0. tauto.
  - apply nth_error_None in E0. rewrite nth_overflow by auto. split; [|cbn [In]; tauto]. intros [H|]; auto. apply (touches_lt _ _ _ _ _ V0) in H. lia.
Qed.

(** A file with functions of a type the loading program does not know is refused, and so is a file of another version. *)
Theorem C43_unknown_type : forall T (N : num T) z vti types types' m m0 t k fs,
  (forall w, n_mul N w (n_abs N (n_sub N (n_of N 0) (n_of N 1))) = w) ->
  NoDup types -> Forall storable types -> built T N types m -> h_space m <> [] ->
  nth_error types t = Some k -> nth_error (h_funs m) t = Some fs -> fs <> [] -> ~ In k types' ->
  exists file, h_save T N z vti types m = Ret file /\ h_load T N z types' m0 file = Throw.
Proof.
  intros T N z vti types types' m m0 t k fs HN ND HS HB HV Ht Hf HF HK. destruct (built_valid T N types m HB) as [recs V].
  destruct (save_ok T N z vti HN types m recs V HV HS ND) as (gs & ES & GS). eexists. split; [exact ES|].
  apply (load_unknown T N z vti types m recs types' m0 gs t k fs); auto.
Qed.
Theorem C43_version : forall T (N : num T) z types m (file : hfile T) major minor rest, hf_header file = major :: minor :: rest -> ~ (major = 2 /\ minor = 0) -> h_load T N z types m file = Throw.
Proof.
  intros T N z types m file major minor rest E H. unfold h_load. rewrite E. destruct (length (major :: minor :: rest) <=? 5); auto. cbn [rd nth_error bind].
  destruct (Nat.eqb_spec major 2); auto. destruct (Nat.eqb_spec minor 0); auto. exfalso. auto.
Qed.

(** What does not come back. *)
(** A model without variables cannot be saved. *)
Theorem C43_empty_refuted : forall T (N : num T) z vti types m, h_space m = [] -> h_save T N z vti types m = Undef.
Proof. intros T N z vti types m E. unfold h_save. change (save_vector (header_of T vti types m)) with (Ret (header_of T vti types m)). cbn [bind]. rewrite E. reflexivity. Qed.
Definition table (sh : list nat) (d : list Z) : fobj Z := OExplicit (mkExplicit sh d).
Lemma table_ok : forall sh d, length d = size_of sh -> positive sh -> obj_ok Z KExplicit (table sh d).
Proof. intros sh d H P. split; auto. Qed.
(** Functions without index sequence (StaticSingleSiteFunction) cannot be saved. *)
Theorem C43_static_refuted : exists types m, built Z num_Z types m /\ h_space m <> [] /\ h_save Z num_Z 0%Z 3 types m = Undef.
Proof.
  exists [KStatic 2], (mkHgm [2] [[OStatic [5%Z; 7%Z]]] [[]] [] [] 0). split; [|split; [discriminate|vm_compute; reflexivity]].
  eapply built_step with (o := HFunction 0 (OStatic [5%Z; 7%Z])); [eapply built_step with (o := HVariable 2); [apply built_new|exact I|reflexivity]| |reflexivity].
  exists (KStatic 2). split; auto. reflexivity.
Qed.
(** A type of the file that no function uses and that the loading program does not have takes the place of the first type:
    functions of that type are not loaded, without an error, and the factors refer to functions that do not exist. *)
Theorem C43_unused_type_refuted : exists types types' m file m' fc, built Z num_Z types m /\ NoDup types /\ Forall storable types /\ h_space m <> [] /\
  (forall t k, nth_error types t = Some k -> ~ In k types' -> nth_error (h_funs m) t = Some []) /\
  h_save Z num_Z 0%Z 3 types m = Ret file /\ h_load Z num_Z 0%Z types' (h_new types') file = Ret m' /\
  nth_error (h_factors m') 0 = Some fc /\ h_function types' m' fc = Undef /\ h_evaluate Z num_Z (mkOper 0%Z Z.add Z.sub) types m [1] = Ret 7%Z /\ h_evaluate Z num_Z (mkOper 0%Z Z.add Z.sub) types' m' [1] = Undef.
Proof.
  exists [KPotts; KExplicit], [KExplicit], (mkHgm [2] [[]; [table [2] [5; 7]%Z]] [[0]] [mkHf 0 1 0 1] [0] 1),
    (mkFile [2; 0; 1; 1; 2; 6; 0; 0; 1; 3] [2] [(0, mkGroup [1; 2] [5; 7]%Z)] (Some [0; 1; 1; 0])),
    (mkHgm [2] [[]] [[0]] [mkHf 0 0 0 1] [0] 1), (mkHf 0 0 0 1).
  split. { eapply built_step with (o := HFactor 0 1 [0]).
    - eapply built_step with (o := HFunction 1 (table [2] [5; 7]%Z)); [eapply built_step with (o := HVariable 2); [apply built_new|exact I|reflexivity]| |reflexivity].
      exists KExplicit. split; auto. apply table_ok; auto. repeat constructor.
    - split; [repeat constructor|]. split; [repeat constructor|]. exists KExplicit, (table [2] [5; 7]%Z). split; auto. split; auto. intros [|i] Hi; cbn in *; auto; lia.
    - reflexivity. }
  split. { repeat constructor; cbn; intuition discriminate. } split. { repeat constructor. } split; [discriminate|]. split.
  { intros [|[|t]] k Hk NI; cbn in *; auto. { exfalso. injection Hk as <-. apply NI. auto. } destruct t; discriminate. }
  repeat (split; [vm_compute; reflexivity|]). vm_compute; reflexivity.
Qed.
(** Loading into a used model leaves the old factors at the variables, even factors that do not exist any more. *)
Theorem C43_adjacency_refuted : exists types m m0 file m', built Z num_Z types m /\ built Z num_Z types m0 /\ h_space m <> [] /\
  h_save Z num_Z 0%Z 3 types m = Ret file /\ h_load Z num_Z 0%Z types m0 file = Ret m' /\ length (h_factors m') = 0 /\ h_adj m = [[]] /\ h_adj m' = [[0]] /\ h_order m = 0 /\ h_order m' = 1.
Proof.
  exists [KExplicit], (mkHgm [2] [[]] [[]] [] [] 0), (mkHgm [2] [[table [2] [5; 7]%Z]] [[0]] [mkHf 0 0 0 1] [0] 1),
    (mkFile [2; 0; 1; 0; 1; 0; 0; 3] [2] [] None), (mkHgm [2] [[table [2] [5; 7]%Z]] [[0]] [] [] 1).
  split. { eapply built_step with (o := HVariable 2); [apply built_new|exact I|reflexivity]. }
  split. { eapply built_step with (o := HFactor 0 0 [0]).
    - eapply built_step with (o := HFunction 0 (table [2] [5; 7]%Z)); [eapply built_step with (o := HVariable 2); [apply built_new|exact I|reflexivity]| |reflexivity].
      exists KExplicit. split; auto. apply table_ok; auto. repeat constructor.
    - split; [repeat constructor|]. split; [repeat constructor|]. exists KExplicit, (table [2] [5; 7]%Z). split; auto. split; auto. intros [|i] Hi; cbn in *; auto; lia.
    - reflexivity. }
  split; [discriminate|]. repeat (split; [vm_compute; reflexivity|]). vm_compute; reflexivity.
Qed.

(** A model with a table, a Potts function and three factors meets the hypotheses of the round trip, with another type list. *)
Example C43_case : exists m, built Z num_Z [KExplicit; KPotts] m /\ h_space m = [2; 3; 3] /\ length (h_factors m) = 3 /\
  incl [KExplicit; KPotts] [KConstant; KPotts; KExplicit] /\ NoDup [KExplicit; KPotts] /\ NoDup [KConstant; KPotts; KExplicit] /\ Forall storable [KExplicit; KPotts] /\
  exists file m', h_save Z num_Z 0%Z 3 [KExplicit; KPotts] m = Ret file /\ h_load Z num_Z 0%Z [KConstant; KPotts; KExplicit] (h_new [KConstant; KPotts; KExplicit]) file = Ret m' /\
    h_evaluate Z num_Z (mkOper 0%Z Z.add Z.sub) [KExplicit; KPotts] m [1; 2; 0] = Ret 17%Z /\ h_evaluate Z num_Z (mkOper 0%Z Z.add Z.sub) [KConstant; KPotts; KExplicit] m' [1; 2; 0] = Ret 17%Z.
Proof.
  assert (B0 : built Z num_Z [KExplicit; KPotts] (mkHgm [2; 3; 3] [[]; []] [[]; []; []] [] [] 0)).
  { eapply built_step with (o := HVariable 3); [eapply built_step with (o := HVariable 3); [eapply built_step with (o := HVariable 2); [apply built_new|exact I|reflexivity]|exact I|reflexivity]|exact I|reflexivity]. }
  assert (B1 : built Z num_Z [KExplicit; KPotts] (mkHgm [2; 3; 3] [[table [2; 3] [1; 2; 3; 4; 5; 6]%Z]; [OFn2 (mkFn2 3 3 8 9)%Z]] [[]; []; []] [] [] 0)).
  { eapply built_step with (o := HFunction 1 (OFn2 (mkFn2 3 3 8 9)%Z)); [eapply built_step with (o := HFunction 0 (table [2; 3] [1; 2; 3; 4; 5; 6]%Z)); [exact B0| |reflexivity]| |reflexivity].
    - exists KExplicit. split; auto. apply table_ok; auto. repeat constructor.
    - exists KPotts. split; auto. exact I. }
  assert (B2 : built Z num_Z [KExplicit; KPotts] (mkHgm [2; 3; 3] [[table [2; 3] [1; 2; 3; 4; 5; 6]%Z]; [OFn2 (mkFn2 3 3 8 9)%Z]] [[0; 2]; [0; 1]; [1; 2]] [mkHf 0 0 0 2; mkHf 0 1 2 2; mkHf 0 0 4 2] [0; 1; 1; 2; 0; 2] 2)).
  { eapply built_step with (o := HFactor 0 0 [0; 2]); [eapply built_step with (o := HFactor 0 1 [1; 2]); [eapply built_step with (o := HFactor 0 0 [0; 1]); [exact B1| |reflexivity]| |reflexivity]| |vm_compute; reflexivity].
    1, 3: split; [repeat constructor|]; split; [repeat constructor|]; exists KExplicit, (table [2; 3] [1; 2; 3; 4; 5; 6]%Z); split; auto; split; auto; intros [|[|i]] Hi; cbn in *; auto; lia.
    split; [repeat constructor|]; split; [repeat constructor|]; exists KPotts, (OFn2 (mkFn2 3 3 8 9)%Z); split; auto; split; auto; intros [|[|i]] Hi; cbn in *; auto; lia. }
  eexists. split; [exact B2|]. split; auto. split; auto. split. { intros k Hk; cbn in *; intuition. } split. { repeat constructor; cbn; intuition discriminate. }
  split. { repeat constructor; cbn; intuition discriminate. } split. { repeat constructor. }
  set (r := h_save Z num_Z 0%Z 3 [KExplicit; KPotts] (mkHgm [2; 3; 3] [[table [2; 3] [1; 2; 3; 4; 5; 6]%Z]; [OFn2 (mkFn2 3 3 8 9)%Z]] [[0; 2]; [0; 1]; [1; 2]] [mkHf 0 0 0 2; mkHf 0 1 2 2; mkHf 0 0 4 2] [0; 1; 1; 2; 0; 2] 2)).
  vm_compute in r. subst r. eexists. eexists. split; [reflexivity|]. split; [vm_compute; reflexivity|]. split; vm_compute; reflexivity.
Qed.

Print Assumptions C43_build.
Print Assumptions C43_round_trip.
Print Assumptions C43_used_target.
Print Assumptions C43_unknown_type.
Print Assumptions C43_version.
Print Assumptions C43_empty_refuted.
Print Assumptions C43_static_refuted.
Print Assumptions C43_unused_type_refuted.
Print Assumptions C43_adjacency_refuted.
