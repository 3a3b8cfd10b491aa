(** C52: decompositions of graphical models. *)
From Coq Require Import Sorted Relations.
From Verif Require Import Base FactorGraphModel FactorGraphSpec DecompModel DecompSpec DecompProofs DecompReorder DecompComplete DecompBuild DecompForest DecompTree DecompFinal.

(** What graphical models guarantee (C12): the variables of a factor are strictly increasing and exist. *)
Definition wf_factors (nv : nat) (fs : list (list nat)) : Prop := Forall (fun vs => StronglySorted lt vs /\ Forall (fun v => v < nv) vs) fs.

(** ** Any use of the interface of GraphicalModelDecomposition *)
Inductive dop := OpModel | OpVariable (m v : nat) | OpFactor (m f : nat) (idx : list nat) | OpEmpty (m : nat) (indices idx : list nat) | OpReorder | OpComplete.
Definition d_step (d : dec) (o : dop) : outcome dec :=
  match o with
  | OpModel => Ret (fst (addSubModel d))
  | OpVariable m v => '(d, _) <- addSubVariable d m v ;; Ret d
  | OpFactor m f idx => '(d, _) <- addSubFactor d m f idx ;; Ret d
  | OpEmpty m key idx => '(d, _) <- addSubFactor_empty d m key idx ;; Ret d
  | OpReorder => reorder d
  | OpComplete => complete d
  end.
(** Submodels, variables and factors exist; a subfactor connects copies of the variables of its factor. *)
Definition d_legal (nv : nat) (fs : list (list nat)) (d : dec) (o : dop) : Prop :=
  match o with
  | OpModel | OpReorder | OpComplete => True
  | OpVariable m v => m < d_nm d /\ v < nv
  | OpFactor m f idx => m < d_nm d /\ f < length fs /\ copies_of d (nth f fs []) m idx
  | OpEmpty m key idx => m < d_nm d /\ copies_of d key m idx
  end.
Fixpoint d_history (nv : nat) (fs : list (list nat)) (d : dec) (ops : list dop) : Prop :=
  match ops with [] => True | o :: t => d_legal nv fs d o /\ forall d', d_step d o = Ret d' -> d_history nv fs d' t end.

Theorem C52_history : forall nv fs ops, d_history nv fs (dec_new nv (length fs) 0) ops ->
  exists d, foldM d_step ops (dec_new nv (length fs) 0) = Ret d /\ decomposes nv fs d /\
    exists b, isValid d nv fs = Ret b /\ (b = true <-> covers nv fs d).
Proof.
  intros nv fs ops. assert (Q : forall d, decomposes nv fs d -> d_history nv fs d ops -> exists d', foldM d_step ops d = Ret d' /\ decomposes nv fs d').
  { induction ops as [|o ops IH]; intros d D [L H] || intros d D _. { exists d. auto. }
    assert (S : exists d1, d_step d o = Ret d1 /\ decomposes nv fs d1).
    { destruct o as [|m v|m f idx|m key idx| |]; cbn [d_step d_legal] in *.
      - eexists. split; [reflexivity|]. apply addSubModel_ok. auto.
      - destruct L as [L1 L2]. destruct (addSubVariable_ok nv fs d m v D L1 L2) as [d1 [E [D1 _]]]. rewrite E. cbn [bind]. exists d1. auto.
      - destruct L as [L1 [L2 L3]]. destruct (addSubFactor_ok nv fs d m f idx D L1 L2 L3) as [d1 [k [E [D1 _]]]]. rewrite E. cbn [bind]. exists d1. auto.
      - destruct L as [L1 L2]. destruct (addSubFactor_empty_ok nv fs d m key idx D L1 L2) as [d1 [k [E [D1 _]]]]. rewrite E. cbn [bind]. exists d1. auto.
      - destruct (reorder_ok nv fs d D) as [ren [d1 [E [_ [_ D1]]]]]. eauto.
      - destruct (complete_ok nv fs d D) as [d1 [E [D1 _]]]. eauto. }
    destruct S as [d1 [E D1]]. cbn [foldM]. rewrite E. cbn [bind]. apply IH; auto. }
  intros H. destruct (Q _ (dec_new_ok nv fs) H) as [d [E D]]. exists d. split; auto. split; auto. apply isValid_ok. auto.
Qed.

(** reorder numbers the copies in the order of the variables, and changes nothing else. *)
Theorem C52_reorder : forall nv fs d, decomposes nv fs d ->
  exists ren d', reorder d = Ret d' /\ renames ren d d' /\ ordered d' /\ decomposes nv fs d'.
Proof. exact reorder_ok. Qed.

(** complete adds unary subfactors until every copy of a variable with several copies has one. *)
Theorem C52_complete : forall nv fs d, decomposes nv fs d ->
  exists d', complete d = Ret d' /\ decomposes nv fs d' /\ completed fs d' /\ d_vl d' = d_vl d /\ d_nsv d' = d_nsv d /\ d_nm d' = d_nm d /\
    (forall f, exists r, nth f (d_fl d') [] = nth f (d_fl d) [] ++ r /\ (r <> [] -> length (nth f fs []) = 1)) /\
    (forall key l, In (key, l) (d_el d') -> In (key, l) (d_el d) \/ length key = 1).
Proof. intros nv fs d D. destruct (complete_ok nv fs d D) as [d' [E [D' [G C]]]]. destruct G as [G1 [G2 [G3 [G4 [_ G6]]]]]. exists d'. auto 10. Qed.

(** ** GraphicalModelDecomposer *)
(** Lists of factors: one submodel for each list, with exactly these factors. *)
Theorem C52_manual : forall nv fs subs, wf_factors nv fs -> Forall (Forall (fun f => f < length fs)) subs ->
  exists d, decomposeManual nv fs subs = Ret d /\ decomposes nv fs d /\ ordered d /\ single d /\ d_nm d = length subs /\
    (forall f, occurs_in d f = flat_map (fun m => repeat m (count_occ Nat.eq_dec (nth m subs []) f)) (seq 0 (length subs))) /\
    ((forall f, f < length fs -> exists l, In l subs /\ In f l) -> (forall v, v < nv -> exists f, In v (nth f fs [])) -> covers nv fs d).
Proof.
  intros nv fs subs WF H. destruct (manual_ok nv fs WF subs H) as [d [E [D [O [S [N OC]]]]]]. exists d. split; auto. split; auto. split; auto. split; auto. split; auto. split; auto.
  intros A B. assert (CF : forall f, f < length fs -> nth f (d_fl d) [] <> []).
  { intros f Hf Q. destruct (A f Hf) as [l [L1 L2]]. apply (In_nth _ _ []) in L1. destruct L1 as [m [M1 <-]]. assert (I : In m (occurs_in d f)).
    { rewrite OC. apply in_flat_map. exists m. split; [apply in_seq; lia|]. apply (count_occ_In Nat.eq_dec) in L2. destruct (count_occ Nat.eq_dec (nth m subs []) f); [lia|left; auto]. }
    unfold occurs_in in I. rewrite Q in I. destruct I. }
  split; auto. intros v Hv Q. destruct (B v Hv) as [f If]. assert (Hf := nth_In_lt _ _ _ _ If). specialize (CF f Hf). destruct (nth f (d_fl d) []) as [|s t] eqn:Es; [tauto|].
  destruct (dc_factor _ _ _ D f s) as [_ C]. { rewrite Es. left. auto. } clear - C If Q. unfold copies_of in C. induction C as [|u k us idx Cu C IH]; [destruct If|]. destruct If as [->|If]; auto. unfold copy_of in Cu. rewrite Q in Cu. destruct Cu.
Qed.

(** A tree: one submodel without cycles, with every factor once and every variable. *)
Theorem C52_tree : forall nv fs, wf_factors nv fs ->
  exists d, decomposeIntoTree nv fs = Ret d /\ decomposes nv fs d /\ ordered d /\ covers nv fs d /\ d_nm d = 1 /\
    (forall f, f < length fs -> occurs_in d f = [0]) /\ acyclic (sub_graph d 0).
Proof.
  intros nv fs WF. destruct (tree_ok nv fs WF) as [d [E [D [O [_ [N [C [OC [d0 [ren [D0 [R A]]]]]]]]]]]]. exists d. split; auto. split; auto. split; auto. split.
  { split; auto. intros f Hf Q. specialize (OC f Hf). unfold occurs_in in OC. rewrite Q in OC. discriminate. } split; auto. split; auto. apply (renames_acyc nv fs ren d0 d 0 D0); auto. destruct R as [_ [_ [R _]]]. lia.
Qed.

(** Spanning trees: terminates; at most one submodel per factor, each with a copy of every variable and without cycles; every factor occurs. *)
Theorem C52_spanning_trees : forall nv fs, wf_factors nv fs ->
  exists d, decomposeIntoSpanningTrees nv fs = Ret d /\ decomposes nv fs d /\ d_nm d <= length fs /\ (0 < d_nm d <-> fs <> []) /\
    (forall m, m < d_nm d -> nth m (d_nsv d) 0 = nv /\ (forall v k, copy_of d v m k <-> k = v /\ v < nv) /\ acyclic (sub_graph d m)) /\
    (fs <> [] \/ nv = 0 -> covers nv fs d).
Proof.
  intros nv fs WF. destruct (spanning_ok nv fs WF) as [d [E [D [_ [S [V [A [N1 [N2 C]]]]]]]]]. exists d. split; auto. split; auto. split; auto. split; [tauto|]. split.
  - intros m Hm. destruct (V m Hm) as [V1 V2]. split; auto. split; auto. exact (A m Hm).
  - intros H. split; auto. intros v Hv Q. destruct H as [H|H]; [|lia]. apply N1 in H. destruct (V 0 H) as [_ V2]. assert (X : copy_of d v 0 v) by (apply V2; auto). unfold copy_of in X. rewrite Q in X. destruct X.
Qed.
(** A model with variables but without factors has no spanning trees: its variables occur in no submodel. *)
Theorem C52_spanning_trees_refuted : exists nv fs d, wf_factors nv fs /\ decomposeIntoSpanningTrees nv fs = Ret d /\ d_nm d = 0 /\ ~ covers nv fs d /\ isValid d nv fs = Ret false.
Proof.
  exists 2, [], (dec_new 2 0 0). split; [constructor|]. split; [vm_compute; reflexivity|]. split; auto. split; [|vm_compute; reflexivity]. intros [H _]. apply (H 0); auto.
Qed.
(** decomposeManual creates no copies of variables without factors. *)
Theorem C52_manual_refuted : exists nv fs subs d, wf_factors nv fs /\ (forall f, f < length fs -> exists l, In l subs /\ In f l) /\ decomposeManual nv fs subs = Ret d /\ isValid d nv fs = Ret false.
Proof.
  exists 2, [[0]], [[0]], (mkDec 2 1 1 [1] [1] [[mkSub 0 (Some 0) [0]]] [[(0, 0)]; []] []). split; [repeat constructor|]. split; [|split; vm_compute; reflexivity].
  intros f Hf. exists [0]. cbn in *. split; auto. left. lia.
Qed.

(** K-fans for given sets of inner variables: submodel m contains the inner variables and their neighbours, with the unary factors over these
    and the pairwise factors that contain an inner variable; factors without variables are in submodel 0. *)
Theorem C52_kfans_sets : forall nv fs inners, wf_factors nv fs -> Forall (fun vs => length vs <= 2) fs -> Forall (Forall (fun v => v < nv)) inners ->
  exists d, decomposeIntoKFans_sets nv fs inners = Ret d /\ decomposes nv fs d /\ single d /\ d_nm d = length inners /\
    (forall m v, m < length inners -> In v (nth m inners []) -> exists k, copy_of d v m k) /\
    (forall f m, f < length fs -> (In m (occurs_in d f) <-> m < length inners /\
       match nth f fs [] with
       | [] => m = 0
       | [u] => In u (nth m inners []) \/ exists g v, In v (nth m inners []) /\ In v (nth g fs []) /\ In u (nth g fs [])
       | u :: v :: _ => In u (nth m inners []) \/ In v (nth m inners [])
       end)) /\
    (forall f, f < length fs -> NoDup (occurs_in d f)) /\
    (inners <> [] -> (forall v, v < nv -> exists l, In l inners /\ In v l) -> covers nv fs d).
Proof.
  intros nv fs inners WF LE B. destruct (kfans_sets_ok nv fs WF inners B LE) as [d [E [D [S [N [Q [O ND]]]]]]].
  assert (O' : forall f m, f < length fs -> (In m (occurs_in d f) <-> m < length inners /\
       match nth f fs [] with [] => m = 0 | [u] => In u (nth m inners []) \/ exists g v, In v (nth m inners []) /\ In v (nth g fs []) /\ In u (nth g fs []) | u :: v :: _ => In u (nth m inners []) \/ In v (nth m inners []) end)).
  { intros f m Hf. rewrite (O f m Hf). assert (L : length (nth f fs []) <= 2) by (rewrite Forall_forall in LE; apply LE; apply nth_In; auto). unfold fan_here, fan_has, near. destruct (nth f fs []) as [|u [|v [|w t]]]; try tauto. cbn in L. lia. }
  exists d. split; auto. split; auto. split; auto. split; auto. split; [intros m v Hm; apply (Q m Hm)|]. split; auto. split; auto.
  intros NE CV. split.
  - intros v Hv X. destruct (CV v Hv) as [l [L1 L2]]. apply (In_nth _ _ []) in L1. destruct L1 as [m [M1 <-]]. destruct (Q m M1 v L2) as [k K]. unfold copy_of in K. rewrite X in K. destruct K.
  - intros f Hf X. assert (NO : forall m, ~ In m (occurs_in d f)). { intros m I. unfold occurs_in in I. rewrite X in I. destruct I. }
    assert (VL : forall v, In v (nth f fs []) -> exists m, m < length inners /\ In v (nth m inners [])).
    { intros v I. destruct (CV v (var_lt nv fs WF f v I)) as [l [L1 L2]]. apply (In_nth _ _ []) in L1. destruct L1 as [m [M1 <-]]. eauto. }
    destruct (nth f fs []) as [|u [|v t]] eqn:Ef.
    + apply (NO 0). apply O'; auto. rewrite Ef. split; auto. destruct inners; [tauto|cbn; lia].
    + destruct (VL u (or_introl eq_refl)) as [m [M1 M2]]. apply (NO m). apply O'; auto. rewrite Ef. auto.
    + destruct (VL u (or_introl eq_refl)) as [m [M1 M2]]. apply (NO m). apply O'; auto. rewrite Ef. auto.
Qed.
(** K-fans for a number k > 0: ceil(nv / k) submodels that cover the model. *)
Theorem C52_kfans : forall nv fs k, wf_factors nv fs -> Forall (fun vs => length vs <= 2) fs -> 0 < k ->
  exists d, decomposeIntoKFans nv fs k = Ret d /\ decomposes nv fs d /\ single d /\ d_nm d = (nv + (k - 1)) / k /\ (0 < nv -> covers nv fs d).
Proof.
  intros nv fs k WF LE K. unfold decomposeIntoKFans. destruct (Nat.eqb_spec k 0); [lia|]. destruct (fan_sets_ok nv k K) as [sets [E [B [L C]]]]. rewrite E. cbn [bind].
  destruct (C52_kfans_sets nv fs sets WF LE B) as [d [Ed [D [S [N [_ [_ [_ CV]]]]]]]]. exists d. split; auto. split; auto. split; auto. split; [congruence|]. intros P. apply CV.
  - destruct sets; [|discriminate]. destruct (C 0 P) as [m [M _]]. cbn in M. lia.
  - intros v Hv. destruct (C v Hv) as [m [M1 M2]]. exists (nth m sets []). split; auto. apply nth_In. auto.
Qed.
(** ... and for a model with a factor over more than two variables, an exception. *)
Theorem C52_kfans_throw : forall nv fs k, wf_factors nv fs -> 0 < k -> (exists f, 2 < length (nth f fs [])) -> decomposeIntoKFans nv fs k = Throw.
Proof.
  intros nv fs k WF K H. unfold decomposeIntoKFans. destruct (Nat.eqb_spec k 0); [lia|]. destruct (fan_sets_ok nv k K) as [sets [E [B [L C]]]]. rewrite E. cbn [bind]. apply kfans_sets_throw; auto.
  intros ->. destruct H as [f Hf]. destruct (nth f fs []) as [|v t] eqn:Ef; cbn in Hf; [lia|]. assert (v < nv) by (apply (var_lt nv fs WF f); rewrite Ef; left; auto). destruct (C v) as [m [M _]]; auto. cbn in M. lia.
Qed.

(** Open blocks: the given variables, and the factors inside. *)
Theorem C52_open_blocks : forall nv fs inners, wf_factors nv fs -> Forall (fun s => NoDup s /\ Forall (fun v => v < nv) s) inners ->
  exists d, decomposeIntoOpenBlocks nv fs inners = Ret d /\ decomposes nv fs d /\ single d /\ d_nm d = length inners /\
    (forall m v, m < length inners -> In v (nth m inners []) -> exists k, copy_of d v m k) /\
    (forall f m, f < length fs -> (In m (occurs_in d f) <-> m < length inners /\ incl (nth f fs []) (nth m inners []))) /\ (forall f, f < length fs -> NoDup (occurs_in d f)) /\
    ((forall v, v < nv -> exists l, In l inners /\ In v l) -> (forall f, f < length fs -> exists l, In l inners /\ incl (nth f fs []) l) -> covers nv fs d).
Proof.
  intros nv fs inners WF H. destruct (open_ok nv fs WF inners H) as [d [E [D [S [N [O Q]]]]]].
  assert (O' : forall f m, f < length fs -> (In m (occurs_in d f) <-> m < length inners /\ incl (nth f fs []) (nth m inners []))).
  { intros f m Hf. rewrite (O f Hf), filter_In, in_seq. unfold holds. rewrite forallb_forall. split.
    - intros [Q1 Q2]. split; [lia|]. intros v I. apply set_has_In. auto.
    - intros [Q1 Q2]. split; [lia|]. intros v I. apply set_has_In. auto. }
  exists d. split; auto. split; auto. split; auto. split; auto. split; [intros m v Hm; apply (Q m Hm)|]. split; auto. split. { intros f Hf. rewrite (O f Hf). apply NoDup_filter. apply seq_NoDup. }
  intros C1 C2. split.
  - intros v Hv X. destruct (C1 v Hv) as [l [L1 L2]]. apply (In_nth _ _ []) in L1. destruct L1 as [m [M1 <-]]. destruct (Q m M1 v L2) as [k K]. unfold copy_of in K. rewrite X in K. destruct K.
  - intros f Hf X. destruct (C2 f Hf) as [l [L1 L2]]. apply (In_nth _ _ []) in L1. destruct L1 as [m [M1 <-]]. assert (I : In m (occurs_in d f)) by (apply O'; auto). unfold occurs_in in I. rewrite X in I. destruct I.
Qed.

(** Closed blocks: the given variables, and all factors that contain one of them, with all their variables. *)
Theorem C52_closed_blocks_sets : forall nv fs inners, wf_factors nv fs -> Forall (fun s => NoDup s /\ Forall (fun v => v < nv) s) inners ->
  exists d, decomposeIntoClosedBlocks_sets nv fs inners = Ret d /\ decomposes nv fs d /\ ordered d /\ single d /\ d_nm d = length inners /\
    (forall m v, m < length inners -> In v (nth m inners []) -> exists k, copy_of d v m k) /\
    (forall f m, f < length fs -> (In m (occurs_in d f) <-> m < length inners /\ (nth f fs [] = [] \/ exists v, In v (nth f fs []) /\ In v (nth m inners [])))) /\ (forall f, f < length fs -> NoDup (occurs_in d f)) /\
    (inners <> [] -> (forall v, v < nv -> exists l, In l inners /\ In v l) -> covers nv fs d).
Proof.
  intros nv fs inners WF H. destruct (closed_ok nv fs WF inners H) as [d [E [D [OR [S [N [O Q]]]]]]].
  assert (O' : forall f m, f < length fs -> (In m (occurs_in d f) <-> m < length inners /\ (nth f fs [] = [] \/ exists v, In v (nth f fs []) /\ In v (nth m inners [])))).
  { intros f m Hf. rewrite (O f Hf), filter_In, in_seq. assert (T : touches (nth m inners []) (nth f fs []) = true <-> nth f fs [] = [] \/ exists v, In v (nth f fs []) /\ In v (nth m inners [])).
    { unfold touches. destruct (nth f fs []) as [|a t] eqn:Ef; [tauto|]. rewrite existsb_exists. split. - intros [x [X1 X2]]. apply set_has_In in X2. right. eauto. - intros [X|[x [X1 X2]]]; [discriminate|]. exists x. rewrite set_has_In. auto. }
    rewrite T. split; intros [Q1 Q2]; split; auto; lia. }
  exists d. split; auto. split; auto. split; auto. split; auto. split; auto. split; [intros m v Hm; apply (Q m Hm)|]. split; auto. split. { intros f Hf. rewrite (O f Hf). apply NoDup_filter. apply seq_NoDup. }
  intros NE CV. split.
  - intros v Hv X. destruct (CV v Hv) as [l [L1 L2]]. apply (In_nth _ _ []) in L1. destruct L1 as [m [M1 <-]]. destruct (Q m M1 v L2) as [k K]. unfold copy_of in K. rewrite X in K. destruct K.
  - intros f Hf X. assert (NO : forall m, ~ In m (occurs_in d f)). { intros m I. unfold occurs_in in I. rewrite X in I. destruct I. }
    destruct (nth f fs []) as [|u t] eqn:Ef.
    + apply (NO 0). apply O'; auto. split; auto. destruct inners; [tauto|cbn; lia].
    + destruct (CV u) as [l [L1 L2]]. { apply (var_lt nv fs WF f). rewrite Ef. left. auto. } apply (In_nth _ _ []) in L1. destruct L1 as [m [M1 <-]]. apply (NO m). apply O'; auto. split; auto. right. exists u. rewrite Ef. split; [left; auto|auto].
Qed.
(** A number of closed blocks > 0: covers the model. *)
Theorem C52_closed_blocks : forall nv fs blocks, wf_factors nv fs -> 0 < blocks ->
  exists d, decomposeIntoClosedBlocks nv fs blocks = Ret d /\ decomposes nv fs d /\ ordered d /\ single d /\ d_nm d = blocks /\ covers nv fs d.
Proof.
  intros nv fs blocks WF B. unfold decomposeIntoClosedBlocks. destruct (block_sets_ok nv blocks B) as [sets [E [SO [L C]]]]. rewrite E. cbn [bind].
  destruct (C52_closed_blocks_sets nv fs sets WF SO) as [d [Ed [D [OR [S [N [_ [_ [_ CV]]]]]]]]]. exists d. split; auto. split; auto. split; auto. split; auto. split; [congruence|]. apply CV.
  - intros ->. cbn in L. lia.
  - intros v Hv. destruct (C v Hv) as [m [M1 M2]]. exists (nth m sets []). split; auto. apply nth_In. lia.
Qed.

(** reorder and complete, as dual decomposition calls them: the decomposition keeps covering the model, and trees remain trees. *)
Theorem C52_prepare : forall nv fs d, decomposes nv fs d ->
  exists d1 d2, reorder d = Ret d1 /\ complete d1 = Ret d2 /\ decomposes nv fs d2 /\ ordered d2 /\ completed fs d2 /\ d_nm d2 = d_nm d /\
    (covers nv fs d -> covers nv fs d2) /\ (single d -> single d2) /\
    (forall f, exists r, occurs_in d2 f = occurs_in d f ++ r /\ (r <> [] -> length (nth f fs []) = 1)) /\
    (d_el d = [] -> forall m, m < d_nm d -> acyclic (sub_graph d m) -> acyclic (sub_graph d2 m)).
Proof. exact prepare_ok. Qed.

(** ** Examples *)
(** A cycle of length three, with one unary factor and a factor without variables *)
Definition tri : list (list nat) := [[0; 1]; [1; 2]; [0; 2]; [1]; []].
Example tri_wf : wf_factors 3 tri. Proof. repeat constructor. Qed.
(** The tree cuts the cycle at the third edge: variable 2 gets a second copy. *)
Example tri_tree : decomposeIntoTree 3 tri = Ret (mkDec 3 5 1 [5] [4]
  [[mkSub 0 (Some 0) [0; 1]]; [mkSub 0 (Some 1) [1; 2]]; [mkSub 0 (Some 2) [0; 3]]; [mkSub 0 (Some 3) [1]]; [mkSub 0 (Some 4) []]] [[(0, 0)]; [(0, 1)]; [(0, 2); (0, 3)]] []).
Proof. vm_compute. reflexivity. Qed.
(** complete: subfactors without a factor for both copies of variable 2. *)
Example tri_complete : (d <- decomposeIntoTree 3 tri ;; complete d) = Ret (mkDec 3 5 1 [7] [4]
  [[mkSub 0 (Some 0) [0; 1]]; [mkSub 0 (Some 1) [1; 2]]; [mkSub 0 (Some 2) [0; 3]]; [mkSub 0 (Some 3) [1]]; [mkSub 0 (Some 4) []]] [[(0, 0)]; [(0, 1)]; [(0, 2); (0, 3)]]
  [([2], [mkSub 0 None [2]; mkSub 0 None [3]])]).
Proof. vm_compute. reflexivity. Qed.
Example tri_spanning : (d <- decomposeIntoSpanningTrees 3 tri ;; Ret (d_nm d, map (occurs_in d) (seq 0 5))) = Ret (2, [[0; 1]; [0]; [1]; [0; 1]; [0; 1]]).
Proof. vm_compute. reflexivity. Qed.
Example tri_kfans : (d <- decomposeIntoKFans 3 tri 1 ;; Ret (d_nm d, map (occurs_in d) (seq 0 5))) = Ret (3, [[0; 1]; [1; 2]; [0; 2]; [0; 1; 2]; [0]]).
Proof. vm_compute. reflexivity. Qed.
Example tri_blocks : (d <- decomposeIntoClosedBlocks 3 tri 2 ;; Ret (d_nm d, map (occurs_in d) (seq 0 5))) = Ret (2, [[0; 1]; [0; 1]; [0; 1]; [0; 1]; [0; 1]]).
Proof. vm_compute. reflexivity. Qed.
Example tri_open : (d <- decomposeIntoOpenBlocks 3 tri [[0; 1]; [1; 2]] ;; b <- isValid d 3 tri ;; Ret (map (occurs_in d) (seq 0 5), b)) = Ret ([[0]; [1]; []; [0; 1]; [0; 1]], false).
Proof. vm_compute. reflexivity. Qed.
Example tri_manual : (d <- decomposeManual 3 tri [[0; 1]; [2; 3; 4]] ;; b <- isValid d 3 tri ;; Ret (map (occurs_in d) (seq 0 5), b)) = Ret ([[0]; [0]; [1]; [1]; [1]], true).
Proof. vm_compute. reflexivity. Qed.
Example tri_history : d_history 2 [[0; 1]] (dec_new 2 1 0) [OpModel; OpVariable 0 1; OpVariable 0 0; OpFactor 0 0 [1; 0]; OpModel; OpVariable 1 1; OpEmpty 1 [1] [0]; OpReorder; OpComplete].
Proof.
  repeat (cbn [d_history]; split; [|intros ? ?H; vm_compute in H; injection H as <-]); cbn [d_legal]; repeat split; cbn; auto; repeat (apply Forall2_cons || apply Forall2_nil); unfold copy_of; cbn; auto.
Qed.

Print Assumptions C52_history.
Print Assumptions C52_reorder.
Print Assumptions C52_complete.
Print Assumptions C52_manual.
Print Assumptions C52_tree.
Print Assumptions C52_spanning_trees.
Print Assumptions C52_spanning_trees_refuted.
Print Assumptions C52_manual_refuted.
Print Assumptions C52_kfans_sets.
Print Assumptions C52_kfans.
Print Assumptions C52_kfans_throw.
Print Assumptions C52_open_blocks.
Print Assumptions C52_closed_blocks_sets.
Print Assumptions C52_closed_blocks.
Print Assumptions C52_prepare.
