(** Proofs about GraphicalModelDecomposer: decomposeIntoTree, k-fans, the default sets, and the preparation of a decomposition. *)
From Coq Require Import Sorted Permutation Relations.
From Verif Require Import Base PartitionModel UnionFind PartitionProofs FactorGraphModel FactorGraphSpec DecompModel DecompSpec DecompProofs DecompReorder DecompComplete DecompBuild DecompForest DecompTree.
#[local] Arguments nth_error : simpl never.

Section F.
Variable nv : nat.
Variable fs : list (list nat).
Hypothesis WF : Forall (fun vs => StronglySorted lt vs /\ Forall (fun v => v < nv) vs) fs.
Notation DC := (decomposes nv fs).
Notation nf := (length fs).

(** ** decomposeIntoTree *)
Lemma tree_variables : forall pairs vs d p c acc, DC d -> d_nm d = 1 -> PInv p nv pairs -> (forall v, v < nv -> copy_of d v 0 v) -> Forall (fun e => 0 < snd e) c -> (forall v, In v vs -> v < nv) ->
  exists d' p' c' idx, foldM tree_variable vs (d, p, c, acc) = Ret (d', p', c', acc ++ idx) /\ DC d' /\ d_nm d' = 1 /\ extends d d' /\ d_fl d' = d_fl d /\ d_el d' = d_el d /\ PInv p' nv pairs /\
    (forall z s, Root (parents p') z s <-> Root (parents p) z s) /\ copies_of d' vs 0 idx /\ nth 0 (d_nsv d) 0 <= nth 0 (d_nsv d') 0 /\
    (forall k, In k idx -> (k < nv /\ In k vs /\ forall r, Root (parents p) k r -> ~ In r (map fst c)) \/ nth 0 (d_nsv d) 0 <= k) /\
    (forall a b, In a idx -> In b idx -> a < nth 0 (d_nsv d) 0 -> b < nth 0 (d_nsv d) 0 -> connected pairs a b -> a = b).
Proof.
  intros pairs. induction vs as [|v vs IH]; intros d p c acc D N P C F B; cbn [foldM].
  { exists d, p, c, []. rewrite app_nil_r. split; auto. split; auto. split; auto. split; [apply extends_refl|]. split; auto. split; auto. split; auto. split; [tauto|]. split; [constructor|]. split; auto. split; [intros k []|intros a b []]. }
  assert (Hv : v < nv) by (apply B; left; auto). unfold tree_variable at 1. destruct (PInv_find p nv pairs v P Hv) as [p1 [r [E1 [P1 [R1 [_ S1]]]]]]. rewrite E1. cbn [bind].
  destruct (bump c r) as [c' n] eqn:EB. destruct (bump_spec _ _ _ _ EB F) as [B1 [B2 B3]].
  destruct (Nat.ltb_spec 1 n) as [L|L]; cbn [bind].
  - destruct (addSubVariable_ok nv fs d 0 v D ltac:(lia) Hv) as [d1 [E2 [D1 [X1 [C1 [N1 [N2 [N3 [N4 [N5 N6]]]]]]]]]]. rewrite E2. cbn [bind]. set (k := nth 0 (d_nsv d) 0) in *.
    assert (K1 : nth 0 (d_nsv d1) 0 = S k). { rewrite N5. destruct (Nat.eq_dec 0 0); [auto|lia]. }
    destruct (IH d1 p1 c' (acc ++ [k]) D1) as [d2 [p2 [c2 [idx [E3 [D2 [M2 [X2 [F2 [EL2 [P2 [S2 [C2 [K2 [I2 U2]]]]]]]]]]]]]]]; auto; try congruence. { intros w Hw. apply X1. auto. } { intros. apply B. right. auto. }
    exists d2, p2, c2, (k :: idx). rewrite E3, <- app_assoc. split; auto. split; auto. split; auto. split; [eapply extends_trans; eauto|]. split; [congruence|]. split; [congruence|]. split; auto. split. { intros. rewrite S2. auto. } split. { constructor; auto. apply X2. auto. } split; [lia|]. split.
    + intros a [<-|I]; auto. destruct (I2 a I) as [[A1 [A2 A3]]|A]; [left|right; lia]. split; auto. split; [right; auto|]. intros q Q J. apply (A3 q). { apply S1. auto. } apply B3. auto.
    + intros a b [<-|Ia] [<-|Ib] La Lb Q; auto; try lia. apply U2; auto; lia.
  - destruct (IH d p1 c' (acc ++ [v]) D) as [d2 [p2 [c2 [idx [E3 [D2 [M2 [X2 [F2 [EL2 [P2 [S2 [C2 [K2 [I2 U2]]]]]]]]]]]]]]]; auto. { intros. apply B. right. auto. }
    exists d2, p2, c2, (v :: idx). rewrite E3, <- app_assoc. split; auto. split; auto. split; auto. split; auto. split; auto. split; auto. split; auto. split. { intros. rewrite S2. auto. } split. { constructor; auto. apply X2. auto. } split; auto. split.
    + intros a [<-|I]. { left. split; auto. split; [left; auto|]. intros q Q. rewrite (Root_det _ _ _ _ Q R1). rewrite <- B1. lia. }
      destruct (I2 a I) as [[A1 [A2 A3]]|A]; [left|right; auto]. split; auto. split; [right; auto|]. intros q Q J. apply (A3 q). { apply S1. auto. } apply B3. auto.
    + assert (X : forall b, In b idx -> b < nth 0 (d_nsv d) 0 -> connected pairs v b -> False).
      { intros b I Lb Q. destruct (I2 b I) as [[A1 [A2 A3]]|A]; [|lia]. destruct (Root_exists _ _ (pi_forest _ _ _ P1) b) as [s Hs]. { rewrite (pi_len _ _ _ P1). auto. } apply (A3 s Hs). apply B3. right. symmetry. apply (pi_agrees _ _ _ P1 v b r s); auto. apply S1. auto. }
      intros a b [<-|Ia] [<-|Ib] La Lb Q; auto. { exfalso. eapply X; eauto. } exfalso. eapply (X a); eauto. apply connected_sym. auto.
Qed.

Lemma tree_ok : exists d, decomposeIntoTree nv fs = Ret d /\ DC d /\ ordered d /\ d_el d = [] /\ d_nm d = 1 /\ (forall v, v < nv -> nth v (d_vl d) [] <> []) /\ (forall f, f < nf -> occurs_in d f = [0]) /\ exists d0 ren, DC d0 /\ renames ren d0 d /\ acyc (sub_factors d0 0).
Proof.
  unfold decomposeIntoTree, DecompModel.nf. destruct (addSubModel_ok nv fs _ (dec_new_ok nv fs)) as [D1 [X1 [_ [N1 Z1]]]]. set (d1 := fst (addSubModel (dec_new nv nf 0))) in *. cbn [d_nm dec_new] in N1, Z1.
  destruct (all_variables_ok nv fs d1 0 D1 ltac:(lia) Z1) as [d2 [E2 [D2 [X2 [FL2 [EL2 [N2 [NV2 CV2]]]]]]]]. { intros v k Q. apply (copy_new nv fs 0 v 0 k Q). }
  rewrite E2. cbn [bind].
  assert (NL : sub_factors d2 0 = []). { rewrite (sub_factors_same d1 d2 0 EL2 FL2). apply (sub_factors_new nv fs 0). }
  destruct (foldM_seq_ind nat (dec * partition) (fun n st => let '(d, p) := st in DC d /\ d_nm d = 1 /\ d_el d = [] /\ extends d2 d /\ nv <= nth 0 (d_nsv d) 0 /\ (forall f, occurs_in d f = if f <? n then [0] else []) /\
      exists pairs, PInv p nv pairs /\ tied nv (sub_factors d 0) pairs) (tree_factor fs) (seq 0 nf) 0 (d2, part_init nv)) as [[d3 p3] [E3 [D3 [N3 [EL3 [X3 [K3 [O3 [pairs3 [P3 T3]]]]]]]]]].
  - split; auto. split; [lia|]. split; [rewrite EL2; auto|]. split; [apply extends_refl|]. split; [lia|]. split. { intros f. cbn. rewrite (occurs_same d1 d2) by auto. apply (occurs_new nv fs 0). } exists []. split; [apply PInv_init|]. rewrite NL. apply tied_nil.
  - intros i a [d p] Hi [D [N [EL [X [K [O [pairs [P T]]]]]]]]. apply nth_error_seq0 in Hi. destruct Hi as [-> Hi]. cbn [plus] in *. unfold tree_factor. rewrite (rd_nth _ fs i []) by auto. cbn [bind].
    assert (B : forall v, In v (nth i fs []) -> v < nv) by (intros; eapply (var_lt nv fs WF); eauto).
    destruct (tree_variables pairs (nth i fs []) d p [] [] D N P) as [d4 [p4 [c4 [idx [E4 [D4 [N4 [X4 [F4 [EL4 [P4 [S4 [C4 [K4 [I4 U4]]]]]]]]]]]]]]]; auto. { intros v Hv. apply X. apply CV2. auto. }
    rewrite E4. cbn [bind app]. assert (Li : i < length (d_fl d4)) by (rewrite (proj2 (dc_nf _ _ _ D4)); auto). destruct (addSubFactor_ok nv fs d4 0 i idx D4 ltac:(lia) Hi C4) as [d5 [k [E5 [D5 [X5 [V5 [NS5 [N5 [EL5 FL5]]]]]]]]]. rewrite E5. cbn [bind].
    destruct (merge_all_ok nv p4 pairs (nth i fs []) P4 B) as [p6 [pairs6 [E6 [P6 [M6 C6]]]]]. rewrite E6. cbn [bind]. exists (d5, p6). split; auto. split; auto. split; [lia|]. split; [congruence|]. split; [eapply extends_trans; [exact X|eapply extends_trans; eauto]|]. split; [rewrite NS5; lia|]. split.
    + intros f. rewrite (occurs_add d4 d5 0 i (Some k) idx Li FL5). rewrite (occurs_same d d4) by auto. rewrite O. destruct (Nat.eq_dec i f) as [<-|NE].
      * rewrite Nat.ltb_irrefl. destruct (Nat.ltb_spec i (S i)); [auto|lia].
      * rewrite app_nil_r. destruct (Nat.ltb_spec f i), (Nat.ltb_spec f (S i)); auto; lia.
    + exists pairs6. split; auto. eapply (tied_add nv (sub_factors d 0) _ pairs pairs6 (nth i fs []) idx (nth 0 (d_nsv d) 0)); eauto.
      * rewrite <- (sub_factors_same d d4) by auto. apply (sub_factors_add d4 d5 i 0 (Some k) idx 0 Li EL5 FL5).
      * intros us q U J. eapply sub_factors_range; eauto.
      * intros q I. destruct (I4 q I) as [[Q1 [Q2 _]]|Q]; auto.
      * intros a b Ia Ib La Lb Q. apply U4; auto; lia.
  - rewrite E3. cbn [bind]. rewrite seq_length in O3. cbn [plus] in O3. destruct (reorder_ok nv fs d3 D3) as [ren [d' [E' [R [OR D']]]]]. exists d'. split; auto. split; auto. split; auto.
    split. { destruct R as [_ [_ [_ [_ [_ [_ [_ [_ R]]]]]]]]. rewrite R, EL3. auto. } split. { destruct R as [_ [_ [R _]]]. lia. } split.
    + intros v Hv Q. assert (CC : copy_of d3 v 0 v) by (apply X3; apply CV2; auto). assert (CD : copy_of d' v 0 (ren 0 v)) by (apply (renames_copy ren d3 d'); eauto). unfold copy_of in CD. rewrite Q in CD. destruct CD.
    + split. { intros f Hf. rewrite (renames_occurs ren d3 d' f R), O3. destruct (Nat.ltb_spec f nf); [auto|lia]. } exists d3, ren. split; auto. split; auto. apply T3.
Qed.

(** ** k-fans *)
Definition near (inner : list nat) (u : nat) : Prop := In u inner \/ exists f v, In v inner /\ In v (nth f fs []) /\ In u (nth f fs []).
Definition marks (inc inc' : list bool) (P : nat -> Prop) : Prop := length inc' = length inc /\ forall u, u < nv -> (nth u inc' false = true <-> nth u inc false = true \/ P u).

Lemma mark_loop : forall A (g : list bool -> A -> outcome (list bool)) (P : A -> nat -> Prop) l, (forall a inc, In a l -> length inc = nv -> exists inc', g inc a = Ret inc' /\ marks inc inc' (P a)) ->
  forall inc, length inc = nv -> exists inc', foldM g l inc = Ret inc' /\ marks inc inc' (fun u => exists a, In a l /\ P a u).
Proof.
  intros A g P. induction l as [|a l IH]; intros H inc L; cbn [foldM]. { exists inc. split; auto. split; auto. intros u Hu. split; auto. intros [Q|[a [[] _]]]; auto. }
  destruct (H a inc (or_introl eq_refl) L) as [i1 [E1 [L1 M1]]]. rewrite E1. cbn [bind]. destruct (IH) with (inc := i1) as [i2 [E2 [L2 M2]]]. { intros. apply H; auto. right. auto. } { lia. }
  exists i2. split; auto. split; [lia|]. intros u Hu. rewrite (M2 u Hu), (M1 u Hu). split.
  - intros [[Q|Q]|[b [I Q]]]; auto; right; [exists a|exists b]; cbn; auto.
  - intros [Q|[b [[<-|I] Q]]]; auto. right. exists b. auto.
Qed.
Lemma mark_one : forall inc v, length inc = nv -> v < nv -> exists inc', wr inc v true = Ret inc' /\ marks inc inc' (fun u => u = v).
Proof.
  intros inc v L Hv. exists (upd inc v true). split; [apply wr_Ret; lia|]. split; [apply length_upd|]. intros u Hu. rewrite nth_upd by lia. destruct (Nat.eq_dec v u) as [<-|N]; [tauto|]. split; auto. intros [Q|Q]; auto; exfalso; auto.
Qed.

Lemma fan_included_ok : forall inner, Forall (fun v => v < nv) inner -> exists inc, fan_included nv fs inner = Ret inc /\ length inc = nv /\ forall u, u < nv -> (nth u inc false = true <-> near inner u).
Proof.
  intros inner B. rewrite Forall_forall in B. unfold fan_included.
  destruct (mark_loop nat (fun inc v => inc <- wr inc v true ;; foldM (fun inc f => vs <- rd fs f ;; foldM (fun inc u => wr inc u true) vs inc) (factors_of fs v) inc)
     (fun v u => u = v \/ exists f, In v (nth f fs []) /\ In u (nth f fs [])) inner) with (inc := repeat false nv) as [inc [E [L M]]].
  - intros v inc I Li. destruct (mark_one inc v Li (B v I)) as [i1 [E1 [L1 M1]]]. rewrite E1. cbn [bind].
    destruct (mark_loop nat (fun inc f => vs <- rd fs f ;; foldM (fun inc u => wr inc u true) vs inc) (fun f u => In u (nth f fs [])) (factors_of fs v)) with (inc := i1) as [i2 [E2 [L2 M2]]]; [|lia|].
    + intros f inc' If Li'. unfold factors_of in If. apply filter_In in If. destruct If as [If _]. apply in_seq in If. rewrite (rd_nth _ fs f []) by (unfold DecompModel.nf in If; lia). cbn [bind].
      destruct (mark_loop nat (fun inc u => wr inc u true) (fun a u => u = a) (nth f fs [])) with (inc := inc') as [i3 [E3 [L3 M3]]]; auto. { intros a inc'' Ia Lc. apply mark_one; auto. eapply (var_lt nv fs WF); eauto. }
      exists i3. split; auto. split; auto. intros u Hu. rewrite (M3 u Hu). split; [intros [Q|[a [Q ->]]]; auto|]. intros [Q|Q]; eauto.
    + rewrite E2. exists i2. split; auto. split; [lia|]. intros u Hu. rewrite (M2 u Hu), (M1 u Hu). unfold factors_of. split.
      * intros [[Q|Q]|[f [If Q]]]; auto. apply filter_In in If. destruct If as [_ If]. apply existsb_exists in If. destruct If as [x [X1 X2]]. apply Nat.eqb_eq in X2. subst x. eauto.
      * intros [Q|[Q|[f [Q1 Q2]]]]; auto. right. exists f. split; auto. apply filter_In. split. { apply in_seq. pose proof (nth_In_lt _ _ _ _ Q1). unfold DecompModel.nf. lia. } apply existsb_exists. exists v. split; auto. apply Nat.eqb_refl.
  - apply repeat_length.
  - rewrite repeat_length in L. exists inc. split; auto. split; auto. intros u Hu. rewrite (M u Hu). rewrite nth_repeat. unfold near. split.
    + intros [Q|[v [I [->|[f [F1 F2]]]]]]; [discriminate|auto|]. right. eauto.
    + intros [Q|[f [v [I [F1 F2]]]]]; right; [exists u|exists v]; eauto 6.
Qed.

(** The submodels of k-fans in which a factor occurs *)
Definition fan_has (inner : list nat) (vs : list nat) : Prop := match vs with [u] => near inner u | [u; v] => In u inner \/ In v inner | _ => False end.

Lemma fan_variables_ok : forall m inc d ids0, ST nv fs m (fun _ => None) d -> length inc = nv ->
  exists d' ids ids', foldM (fun st v => let '(d, ids) := st in b <- rd inc v ;; if b : bool then '(d, k) <- addSubVariable d m v ;; ids <- wr ids v k ;; Ret (d, ids) else Ret (d, ids)) (seq 0 nv) (d, repeat ids0 nv) = Ret (d', ids) /\
    ST nv fs m ids' d' /\ extends d d' /\ d_fl d' = d_fl d /\ d_nm d' = d_nm d /\ length ids = nv /\ (forall v, v < nv -> (ids' v <> None <-> nth v inc false = true)) /\ forall v k, v < nv -> ids' v = Some k -> nth v ids 0 = k.
Proof.
  intros m inc d ids0 H L.
  destruct (foldM_seq_ind nat (dec * list nat) (fun n st => let '(d', ids) := st in exists ids', ST nv fs m ids' d' /\ extends d d' /\ d_fl d' = d_fl d /\ d_nm d' = d_nm d /\ length ids = nv /\ (forall v, ids' v <> None <-> v < n /\ nth v inc false = true) /\ forall v k, v < nv -> ids' v = Some k -> nth v ids 0 = k)
    (fun st v => let '(d, ids) := st in b <- rd inc v ;; if b : bool then '(d, k) <- addSubVariable d m v ;; ids <- wr ids v k ;; Ret (d, ids) else Ret (d, ids)) (seq 0 nv) 0 (d, repeat ids0 nv)) as [[d' ids] [E [ids' [A1 [A2 [A3 [A4 [A5 [A6 A7]]]]]]]]].
  - exists (fun _ => None). split; auto. split; [apply extends_refl|]. split; auto. split; auto. split; [apply repeat_length|]. split; [|discriminate]. intros v. split; [tauto|lia].
  - intros i a [d1 ids] Hi [ids' [A1 [A2 [A3 [A4 [A5 [A6 A7]]]]]]]. apply nth_error_seq0 in Hi. destruct Hi as [-> Hi]. cbn [plus] in *. rewrite (rd_nth _ inc i false) by lia. cbn [bind]. destruct (nth i inc false) eqn:Ei.
    + assert (Ni : ids' i = None). { destruct (ids' i) eqn:Q; auto. exfalso. assert (X : ids' i <> None) by congruence. apply A6 in X. lia. }
      destruct (st_add nv fs m ids' d1 i A1 Hi Ni) as [d2 [E2 [S2 [X2 [F2 [N2 B2]]]]]]. rewrite E2. cbn [bind]. rewrite wr_Ret by lia. cbn [bind]. set (k := nth m (d_nsv d1) 0) in *. exists (d2, upd ids i k). split; auto. eexists. split; [exact S2|]. split; [eapply extends_trans; eauto|]. split; [congruence|]. split; [congruence|]. split; [rewrite length_upd; auto|]. split.
      * intros v. cbn beta. destruct (Nat.eq_dec v i) as [->|NE]. { split; [intros _; split; auto|discriminate]. } rewrite A6. split; intros [Q1 Q2]; split; auto; lia.
      * intros v q Hv. rewrite nth_upd by lia. destruct (Nat.eq_dec v i) as [->|NE]. { destruct (Nat.eq_dec i i); [congruence|lia]. } destruct (Nat.eq_dec i v); [lia|]. auto.
    + exists (d1, ids). split; auto. exists ids'. split; auto. split; auto. split; auto. split; auto. split; auto. split; auto. intros v. rewrite A6. split; intros [Q1 Q2]; split; auto. assert (v <> i) by congruence. lia.
  - exists d', ids, ids'. rewrite seq_length in A6. split; auto. split; auto. split; auto. split; auto. split; auto. split; auto. split; auto. intros v Hv. rewrite A6. cbn [plus]. tauto.
Qed.

Definition fan_here (m : nat) (inner vs : list nat) : Prop := match vs with [] => m = 0 | _ => fan_has inner vs end.

Lemma fan_factor_ok : forall m inner inc ids ids' d f, ST nv fs m ids' d -> length inc = nv -> length ids = nv -> (forall u, u < nv -> (nth u inc false = true <-> near inner u)) ->
  (forall v, v < nv -> (ids' v <> None <-> nth v inc false = true)) -> (forall v k, v < nv -> ids' v = Some k -> nth v ids 0 = k) -> f < nf -> length (nth f fs []) <= 2 ->
  exists d' o, fan_factor fs m inner inc ids d f = Ret d' /\ ST nv fs m ids' d' /\ extends d d' /\ d_nm d' = d_nm d /\
    (forall g, occurs_in d' g = occurs_in d g ++ (if Nat.eq_dec f g then o else [])) /\ ((o = [m] /\ fan_here m inner (nth f fs [])) \/ (o = [] /\ ~ fan_here m inner (nth f fs []))).
Proof.
  intros m inner inc ids ids' d f H Lc Li NE IN ID Hf LE. unfold fan_factor. rewrite (rd_nth _ fs f []) by auto. cbn [bind].
  assert (SKIP : ~ fan_here m inner (nth f fs []) -> exists d' o, Ret d = Ret d' /\ ST nv fs m ids' d' /\ extends d d' /\ d_nm d' = d_nm d /\
    (forall g, occurs_in d' g = occurs_in d g ++ (if Nat.eq_dec f g then o else [])) /\ ((o = [m] /\ fan_here m inner (nth f fs [])) \/ (o = [] /\ ~ fan_here m inner (nth f fs [])))).
  { intros N. exists d, []. split; auto. split; auto. split; [apply extends_refl|]. split; auto. split; auto. intros g. destruct (Nat.eq_dec f g); rewrite app_nil_r; auto. }
  assert (ADD : forall idx, fan_here m inner (nth f fs []) -> copies_of d (nth f fs []) m idx -> exists d' o, ('(d, _) <- addSubFactor d m f idx ;; Ret d) = Ret d' /\ ST nv fs m ids' d' /\ extends d d' /\ d_nm d' = d_nm d /\
    (forall g, occurs_in d' g = occurs_in d g ++ (if Nat.eq_dec f g then o else [])) /\ ((o = [m] /\ fan_here m inner (nth f fs [])) \/ (o = [] /\ ~ fan_here m inner (nth f fs [])))).
  { intros idx Y C. destruct (st_factor nv fs m ids' d f idx H Hf C) as [d' [k [E [S [X [N O]]]]]]. rewrite E. cbn [bind]. exists d', [m]. auto 10. }
  assert (CP : forall u, u < nv -> nth u inc false = true -> copy_of d u m (nth u ids 0)).
  { intros u Hu Q. apply (st_ids _ _ _ _ _ H). apply IN in Q; auto. destruct (ids' u) as [k|] eqn:Ek; [|tauto]. rewrite (ID u k Hu Ek). auto. }
  pose proof (var_lt nv fs WF f) as VL. destruct (nth f fs []) as [|u [|v [|w t]]] eqn:Ef; [| | |cbn in LE; lia].
  - destruct (Nat.eqb_spec m 0) as [M|M]; [apply ADD; [exact M|constructor]|apply SKIP; exact M].
  - assert (Hu : u < nv) by (apply VL; left; auto). rewrite (rd_nth _ inc u false) by lia. cbn [bind]. destruct (nth u inc false) eqn:Eu.
    + rewrite (rd_nth _ ids u 0) by lia. cbn [bind]. apply ADD. { apply NE; auto. } repeat constructor. auto.
    + apply SKIP. intros Q. apply NE in Q; auto. congruence.
  - assert (Hu : u < nv) by (apply VL; left; auto). assert (Hv : v < nv) by (apply VL; right; left; auto). rewrite (rd_nth _ inc u false) by lia. cbn [bind].
    assert (BOTH : In u inner \/ In v inner -> nth u inc false = true /\ nth v inc false = true).
    { intros Q. assert (Iu : In u (nth f fs [])) by (rewrite Ef; left; auto). assert (Iv : In v (nth f fs [])) by (rewrite Ef; right; left; auto). split; apply NE; auto; right; destruct Q as [Q|Q]; exists f; eauto. }
    destruct (nth u inc false) eqn:Eu; cbn [bind].
    + rewrite (rd_nth _ inc v false) by lia. cbn [bind]. destruct (nth v inc false) eqn:Ev.
      * destruct (set_has inner u || set_has inner v) eqn:ES.
        -- rewrite (rd_nth _ ids u 0), (rd_nth _ ids v 0) by lia. cbn [bind]. apply ADD. { apply orb_true_iff in ES. rewrite !set_has_In in ES. exact ES. } repeat constructor; auto.
        -- apply SKIP. intros Q. apply orb_false_iff in ES. destruct ES as [ES1 ES2]. cbn in Q. rewrite <- !set_has_In in Q. destruct Q; congruence.
      * apply SKIP. intros Q. apply BOTH in Q. destruct Q; congruence.
    + apply SKIP. intros Q. apply BOTH in Q. destruct Q; congruence.
Qed.

Lemma fan_model_start : forall inners d m, Forall (Forall (fun v => v < nv)) inners -> DC d -> single d -> m = d_nm d -> m < length inners ->
  exists d1 inc ids ids', ST nv fs m ids' d1 /\ extends d d1 /\ d_fl d1 = d_fl d /\ d_nm d1 = S m /\ length inc = nv /\ length ids = nv /\
    (forall u, u < nv -> (nth u inc false = true <-> near (nth m inners []) u)) /\ (forall v, v < nv -> (ids' v <> None <-> nth v inc false = true)) /\ (forall v k, v < nv -> ids' v = Some k -> nth v ids 0 = k) /\
    fan_model nv fs inners d m = foldM (fan_factor fs m (nth m inners []) inc ids) (seq 0 nf) d1.
Proof.
  intros inners d m B D SG M L. unfold fan_model. rewrite (rd_nth _ inners m []) by auto. cbn [bind]. destruct (fan_included_ok (nth m inners [])) as [inc [E1 [L1 I1]]]. { rewrite Forall_forall in B. apply B. apply nth_In. auto. }
  rewrite E1. cbn [bind]. destruct (st_fresh nv fs d m D SG M) as [T0 [X0 [F0 N0]]].
  destruct (fan_variables_ok m inc _ 0 T0 L1) as [d2 [ids [ids' [E2 [S2 [X2 [F2 [N2 [L2 [A2 B2]]]]]]]]]]. rewrite E2. cbn [bind].
  exists d2, inc, ids, ids'. split; auto. split; [eapply extends_trans; eauto|]. split; [congruence|]. split; [congruence|]. split; auto.
Qed.

Lemma kfans_sets_ok : forall inners, Forall (Forall (fun v => v < nv)) inners -> Forall (fun vs => length vs <= 2) fs ->
  exists d, decomposeIntoKFans_sets nv fs inners = Ret d /\ DC d /\ single d /\ d_nm d = length inners /\ (forall m, m < length inners -> block_has inners m d) /\
    (forall f m, f < nf -> (In m (occurs_in d f) <-> m < length inners /\ fan_here m (nth m inners []) (nth f fs []))) /\ (forall f, f < nf -> NoDup (occurs_in d f)).
Proof.
  intros inners B LE. unfold decomposeIntoKFans_sets, DecompModel.nf.
  destruct (foldM_seq_ind nat dec (fun n d => DC d /\ single d /\ d_nm d = n /\ (forall m, m < n -> block_has inners m d) /\
     (forall f m, f < nf -> (In m (occurs_in d f) <-> m < n /\ fan_here m (nth m inners []) (nth f fs []))) /\ (forall f, f < nf -> NoDup (occurs_in d f)))
     (fan_model nv fs inners) (seq 0 (length inners)) 0 (dec_new nv nf 0)) as [d [E [D [S [N [Q [O ND]]]]]]].
  - split; [apply dec_new_ok|]. split; [exact (single_new nv fs 0)|]. split; auto. split; [intros; lia|]. split.
    + intros f m Hf. rewrite (occurs_new nv fs 0 f). cbn. split; [tauto|lia].
    + intros f _. rewrite (occurs_new nv fs 0 f). constructor.
  - intros i a d Hi [D [SG [N [Q [O ND]]]]]. apply nth_error_seq0 in Hi. destruct Hi as [-> Hi]. cbn [plus] in *.
    destruct (fan_model_start inners d i B D SG ltac:(auto) Hi) as [d1 [inc [ids [ids' [S1 [X1 [F1 [N1 [L1 [L2 [A1 [A2 [A3 E1]]]]]]]]]]]]]. rewrite E1.
    destruct (foldM_seq_ind nat dec (fun n d' => ST nv fs i ids' d' /\ extends d1 d' /\ d_nm d' = S i /\
        forall f, (n <= f -> occurs_in d' f = occurs_in d f) /\ (f < n -> exists o, occurs_in d' f = occurs_in d f ++ o /\ ((o = [i] /\ fan_here i (nth i inners []) (nth f fs [])) \/ (o = [] /\ ~ fan_here i (nth i inners []) (nth f fs [])))))
        (fan_factor fs i (nth i inners []) inc ids) (seq 0 nf) 0 d1) as [d2 [E2 [S2 [X2 [N2 O2]]]]].
    + split; auto. split; [apply extends_refl|]. split; auto. intros f. split; [|lia]. intros _. rewrite (occurs_same d d1) by auto. auto.
    + intros j a d2 Hj [S2 [X2 [N2 O2]]]. apply nth_error_seq0 in Hj. destruct Hj as [-> Hj]. cbn [plus] in *.
      destruct (fan_factor_ok i (nth i inners []) inc ids ids' d2 j S2 L1 L2 A1 A2 A3 Hj) as [d3 [o [E3 [S3 [X3 [N3 [O3 W3]]]]]]]. { rewrite Forall_forall in LE. apply LE. apply nth_In. auto. }
      exists d3. split; auto. split; auto. split; [eapply extends_trans; eauto|]. split; [congruence|]. intros f. rewrite O3. destruct (Nat.eq_dec j f) as [<-|NE].
      * split; [lia|]. intros _. rewrite (proj1 (O2 j)) by lia. exists o. auto.
      * rewrite app_nil_r. destruct (O2 f) as [P1 P2]. split; intros Hf; [apply P1; lia|apply P2; lia].
    + rewrite seq_length in O2. cbn [plus] in O2. exists d2. split; auto. split; [apply S2|]. split; [apply S2|]. split; auto. split; [|split].
      * intros m Hm v I. destruct (Nat.eq_dec m i) as [->|NE].
        -- assert (Hv : v < nv). { rewrite Forall_forall in B. specialize (B (nth i inners []) (nth_In _ _ Hi)). rewrite Forall_forall in B. auto. }
           assert (X : ids' v <> None). { apply A2; auto. apply A1; auto. left. auto. } destruct (ids' v) as [k|] eqn:Ek; [|tauto]. exists k. apply X2. apply (st_ids _ _ _ _ _ S1). auto.
        -- destruct (Q m ltac:(lia) v I) as [k K]. exists k. apply X2. apply X1. auto.
      * intros f m Hf. destruct (O2 f) as [_ P2]. destruct (P2 Hf) as [o [-> W]]. rewrite in_app_iff, (O f m Hf). split.
        -- intros [[Q1 Q2]|Q1]; [split; auto; lia|]. destruct W as [[-> W]|[-> W]]; [|destruct Q1]. destruct Q1 as [<-|[]]. split; auto.
        -- intros [Q1 Q2]. destruct (Nat.eq_dec m i) as [->|]; [|left; split; auto; lia]. right. destruct W as [[-> W]|[-> W]]; [left; auto|tauto].
      * intros f Hf. destruct (O2 f) as [_ P2]. destruct (P2 Hf) as [o [-> W]]. apply NoDup_app_intro; auto.
        -- destruct W as [[-> _]|[-> _]]; repeat constructor; auto.
        -- intros x I J. apply (O f x Hf) in I. destruct W as [[-> _]|[-> _]]; [|destruct J]. destruct J as [<-|[]]. lia.
  - rewrite seq_length in *. exists d. auto 10.
Qed.

(** A factor with more than two variables *)
Lemma kfans_sets_throw : forall inners, Forall (Forall (fun v => v < nv)) inners -> inners <> [] -> (exists f, 2 < length (nth f fs [])) -> decomposeIntoKFans_sets nv fs inners = Throw.
Proof.
  intros inners B NE H. unfold decomposeIntoKFans_sets, DecompModel.nf.
  destruct (fan_model_start inners (dec_new nv nf 0) 0 B (dec_new_ok nv fs) (single_new nv fs 0) eq_refl) as [d1 [inc [ids [ids' [S1 [X1 [F1 [N1 [L1 [L2 [A1 [A2 [A3 E1]]]]]]]]]]]]]. { destruct inners; [tauto|cbn; lia]. }
  destruct inners as [|a inners]; [tauto|]. cbn [length seq foldM]. rewrite E1. assert (Q : foldM (fan_factor fs 0 (nth 0 (a :: inners) []) inc ids) (seq 0 nf) d1 = Throw); [|rewrite Q; auto].
  assert (Q : forall n d, n <= nf -> ST nv fs 0 ids' d -> (exists f, nf - n <= f < nf /\ 2 < length (nth f fs [])) -> foldM (fan_factor fs 0 (nth 0 (a :: inners) []) inc ids) (seq (nf - n) n) d = Throw).
  { induction n as [|n IH]; intros d Hn ST0 [f [Hf Lf]]; [lia|]. cbn [seq foldM]. destruct (Nat.le_gt_cases (length (nth (nf - S n) fs [])) 2) as [LE|GT].
    - destruct (fan_factor_ok 0 (nth 0 (a :: inners) []) inc ids ids' d (nf - S n) ST0 L1 L2 A1 A2 A3 ltac:(lia) LE) as [d2 [o [E2 [S2 _]]]]. rewrite E2. cbn [bind]. replace (S (nf - S n)) with (nf - n) by lia. apply IH; auto; [lia|]. exists f. split; auto. assert (f <> nf - S n) by (intros ->; lia). lia.
    - unfold fan_factor at 1. rewrite (rd_nth _ fs (nf - S n) []) by lia. cbn [bind]. destruct (nth (nf - S n) fs []) as [|x [|y [|z t]]]; cbn in GT; try lia. auto. }
  specialize (Q nf d1 (le_n _) S1). rewrite Nat.sub_diag in Q. apply Q. destruct H as [f Hf]. exists f. split; auto. destruct (Nat.lt_ge_cases f nf); [lia|]. rewrite nth_overflow in Hf by auto. cbn in Hf. lia.
Qed.

Lemma set_insert_In : forall l x y, In y (set_insert l x) <-> In y l \/ y = x.
Proof. induction l as [|z l IH]; intros x y; cbn [set_insert]. { cbn. intuition. } destruct (Nat.ltb_spec x z); [cbn; intuition|]. destruct (Nat.ltb_spec z x); cbn [In]; [rewrite IH; tauto|]. assert (x = z) by lia. subst. intuition. Qed.
Lemma set_insert_sorted : forall l x, StronglySorted lt l -> StronglySorted lt (set_insert l x).
Proof.
  intros l x S. induction S as [|z l S IH F]; cbn [set_insert]. { repeat constructor. } destruct (Nat.ltb_spec x z).
  - constructor. { constructor; auto. } constructor; auto. eapply Forall_impl; [|exact F]. cbn. lia.
  - destruct (Nat.ltb_spec z x); [|constructor; auto]. constructor; auto. apply Forall_forall. intros y I. apply set_insert_In in I. destruct I as [I| ->]; auto. rewrite Forall_forall in F. auto.
Qed.
Lemma sorted_nodup : forall l, StronglySorted lt l -> NoDup l.
Proof. intros l S. induction S as [|a l S IH F]; constructor; auto. intros I. rewrite Forall_forall in F. specialize (F a I). lia. Qed.

(** The default sets of k-fans: every variable is in some set. *)
Lemma fan_sets_ok : forall k, 0 < k -> exists sets, fan_sets nv k = Ret sets /\ Forall (Forall (fun v => v < nv)) sets /\ length sets = (nv + (k - 1)) / k /\ (forall v, v < nv -> exists m, m < length sets /\ In v (nth m sets [])).
Proof.
  intros k K. unfold fan_sets. destruct (Nat.eq_dec nv 0) as [Z|NZ].
  { assert (E0 : (nv + (k - 1)) / k = 0) by (apply Nat.div_small; lia). rewrite E0. exists []. cbn. repeat split; auto. lia. }
  set (num := (nv + (k - 1)) / k).
  assert (IN : forall n s c, exists s', foldM (fun st _ => let '(s, counter) := st in if nv =? 0 then Undef else Ret (set_insert s counter, (counter + 1) mod nv)) (seq 0 n) (s, c mod nv) = Ret (s', (c + n) mod nv) /\
     forall y, In y s' <-> In y s \/ exists j, j < n /\ y = (c + j) mod nv).
  { induction n as [|n IH]; intros s c. { exists s. cbn [seq foldM]. rewrite Nat.add_0_r. split; auto. intros y. split; auto. intros [Q|[j [Q _]]]; auto. lia. }
    destruct (IH s c) as [s' [E I]]. rewrite seq_S, foldM_app, E. cbn [bind foldM plus]. destruct (Nat.eqb_spec nv 0); [lia|]. cbn [bind]. eexists. split.
    - rewrite Nat.add_mod_idemp_l by auto. replace (c + S n) with (c + n + 1) by lia. reflexivity.
    - intros y. rewrite set_insert_In, I. split.
      + intros [[Q|[j [J1 J2]]]|Q]; auto; right; [exists j|exists n]; split; auto.
      + intros [Q|[j [J1 J2]]]; auto. destruct (Nat.eq_dec j n) as [->|]; auto. left. right. exists j. split; auto. lia. }
  destruct (foldM_seq_ind nat (list (list nat) * nat) (fun n st => let '(out, c) := st in length out = n /\ c = (n * k) mod nv /\ forall i, i < n -> forall y, In y (nth i out []) <-> exists j, j < k /\ y = (i * k + j) mod nv)
    (fun st _ => let '(out, counter) := st in '(s, counter) <- foldM (fun st _ => let '(s, counter) := st in if nv =? 0 then Undef else Ret (set_insert s counter, (counter + 1) mod nv)) (seq 0 k) ([], counter) ;; Ret (out ++ [s], counter))
    (seq 0 num) 0 ([], 0)) as [[out c] [E [L [_ I]]]].
  - split; auto. split; [rewrite Nat.mod_0_l; auto|]. intros. lia.
  - intros i a [out c] _ [L [C I]]. cbn [plus] in *. subst c. destruct (IN k [] (i * k)) as [s' [E S]]. rewrite E. cbn [bind]. exists (out ++ [s'], (i * k + k) mod nv). split; auto. split; [rewrite app_length; cbn; lia|]. split; [f_equal; lia|].
    intros j Hj y. destruct (Nat.eq_dec j i) as [->|N]. { rewrite app_nth2, L, Nat.sub_diag by lia. cbn [nth]. rewrite S. cbn [In]. intuition. } rewrite app_nth1 by lia. apply I. lia.
  - rewrite E. cbn [bind]. rewrite seq_length in *. cbn [plus] in *. exists out. split; auto. split; [|split; auto].
    + apply Forall_forall. intros s Is. apply (In_nth _ _ []) in Is. destruct Is as [i [I1 <-]]. apply Forall_forall. intros y Q. apply I in Q; [|lia]. destruct Q as [j [_ ->]]. apply Nat.mod_upper_bound. auto.
    + intros v Hv. assert (V : v / k < num). { unfold num. apply Nat.div_lt_upper_bound; [lia|]. pose proof (Nat.div_mod (nv + (k - 1)) k ltac:(lia)). pose proof (Nat.mod_upper_bound (nv + (k - 1)) k ltac:(lia)). lia. }
      exists (v / k). split; [lia|]. apply I; auto. exists (v mod k). split; [apply Nat.mod_upper_bound; lia|]. rewrite (Nat.mul_comm (v / k)), <- Nat.div_mod by lia. symmetry. apply Nat.mod_small. auto.
Qed.

(** The default sets of closed blocks. *)
Lemma block_set_ok : forall blocks i fuel var s, nv <= fuel + var -> var <= nv -> StronglySorted lt s ->
  exists var' s', block_set nv fuel blocks i var s = (var', s') /\ var <= var' <= nv /\ StronglySorted lt s' /\ (forall y, In y s' <-> In y s \/ var <= y < var') /\ below nv blocks i var' = false /\ (forall y, var <= y < var' -> below nv blocks i y = true).
Proof.
  intros blocks i. induction fuel as [|fuel IH]; intros var s F V SS; cbn [block_set].
  - exists var, s. split; auto. split; [lia|]. split; auto. split; [intros y; split; auto; intros [Q|Q]; auto; lia|]. split; [|intros; lia]. unfold below. destruct (Nat.ltb_spec var nv); [lia|]. apply andb_false_r.
  - destruct (below nv blocks i var) eqn:EB.
    + assert (var < nv). { unfold below in EB. apply andb_true_iff in EB. destruct EB as [_ EB]. apply Nat.ltb_lt in EB. auto. }
      destruct (IH (S var) (set_insert s var)) as [v' [s' [E [V' [S' [I' [B' A']]]]]]]; try lia. { apply set_insert_sorted. auto. }
      exists v', s'. split; auto. split; [lia|]. split; auto. split; [|split; auto]. * intros y. rewrite I', set_insert_In. split; [intros [[Q| ->]|Q]; auto; right; lia|]. intros [Q|Q]; auto. destruct (Nat.eq_dec y var); auto. right. lia. * intros y Hy. destruct (Nat.eq_dec y var) as [->|]; auto. apply A'. lia.
    + exists var, s. split; auto. split; [lia|]. split; auto. split; [intros y; split; auto; intros [Q|Q]; auto; lia|]. split; auto. intros; lia.
Qed.

Lemma below_ge : forall blocks i, 0 < blocks -> 0 < nv -> below nv blocks i 0 = true.
Proof. intros blocks i B N. unfold below. apply andb_true_iff. split; [|apply Nat.ltb_lt; auto]. apply Z.ltb_lt. nia. Qed.
Lemma below_last : forall blocks var, 0 < blocks -> var < nv -> below nv blocks (blocks - 1) var = true.
Proof. intros blocks var B V. unfold below. apply andb_true_iff. split; [|apply Nat.ltb_lt; auto]. apply Z.ltb_lt. replace (blocks - 1 + 1) with blocks by lia. nia. Qed.

Lemma block_sets_ok : forall blocks, 0 < blocks -> exists sets, block_sets nv blocks = Ret sets /\ sets_ok nv sets /\ length sets = blocks /\ (forall v, v < nv -> exists m, m < blocks /\ In v (nth m sets [])).
Proof.
  intros blocks B. unfold block_sets.
  assert (Q : forall n, n <= blocks -> exists out var, foldM (fun st i => let '(out, var) := st in let '(var, s) := block_set nv nv blocks i var [] in if var =? nv then Ret (out ++ [s], var) else if var =? 0 then Undef else Ret (out ++ [s], var - 1)) (seq 0 n) ([], 0) = Ret (out, var) /\
     length out = n /\ sets_ok nv out /\ var <= nv /\ (forall y, y < var -> exists m, m < n /\ In y (nth m out [])) /\ (n = blocks -> var = nv)).
  { induction n as [|n IH]; intros Hn. { exists [], 0. cbn [seq foldM]. split; auto. split; auto. split; [constructor|]. split; [lia|]. split; [intros; lia|lia]. }
    destruct (IH ltac:(lia)) as [out [var [E [L [SS [V [C _]]]]]]]. rewrite seq_S, foldM_app, E. cbn [bind foldM plus].
    destruct (block_set_ok blocks n nv var [] ltac:(lia) V ltac:(constructor)) as [v' [s' [E' [V' [S' [I' [B' A']]]]]]]. rewrite E'.
    assert (SO : sets_ok nv (out ++ [s'])). { apply Forall_app. split; auto. constructor; [|constructor]. split; [apply sorted_nodup; auto|]. apply Forall_forall. intros y Iy. apply I' in Iy. destruct Iy as [[]|Iy]. lia. }
    assert (CO : forall y, y < v' -> exists m, m < S n /\ In y (nth m (out ++ [s']) [])).
    { intros y Hy. destruct (Nat.lt_ge_cases y var) as [Q|Q]. - destruct (C y Q) as [m [M1 M2]]. exists m. split; [lia|]. rewrite app_nth1 by lia. auto. - exists n. split; [lia|]. rewrite app_nth2, L, Nat.sub_diag by lia. cbn [nth]. apply I'. right. lia. }
    destruct (Nat.eqb_spec v' nv) as [EV|NV].
    - cbn [bind]. exists (out ++ [s']), v'. split; auto. split; [rewrite app_length; cbn; lia|]. split; auto. split; [lia|]. split; auto.
    - destruct (Nat.eqb_spec v' 0) as [Z|NZ].
      + exfalso. subst v'. rewrite below_ge in B' by lia. discriminate.
      + cbn [bind]. exists (out ++ [s']), (v' - 1). split; auto. split; [rewrite app_length; cbn; lia|]. split; auto. split; [lia|]. split; [intros y Hy; apply CO; lia|]. intros EB. exfalso. replace n with (blocks - 1) in B' by lia. rewrite below_last in B' by lia. discriminate. }
  destruct (Q blocks (le_n _)) as [out [var [E [L [S [V [C W]]]]]]]. rewrite E. cbn [bind]. exists out. split; auto. split; auto. split; auto. intros v Hv. apply C. rewrite W; auto.
Qed.

(** ** reorder and complete *)
Lemma renames_sub_factors : forall ren d d' m, renames ren d d' -> sub_factors d' m = map (map (ren m)) (sub_factors d m).
Proof.
  intros ren d d' m [_ [_ [_ [_ [_ [_ [_ [F E]]]]]]]]. unfold sub_factors. rewrite F, E. set (g := fun s => mkSub (s_model s) (s_id s) (map (ren (s_model s)) (s_idx s))).
  assert (Q : concat (map (map g) (d_fl d)) ++ concat (map snd (map (fun e : list nat * list sub => (fst e, map g (snd e))) (d_el d))) = map g (concat (d_fl d) ++ concat (map snd (d_el d)))).
  { rewrite map_app, !concat_map. f_equal. f_equal. rewrite !map_map. auto. }
  rewrite Q. generalize (concat (d_fl d) ++ concat (map snd (d_el d))). intros l. induction l as [|s l IH]; auto. cbn [map filter]. cbn [s_model g]. destruct (Nat.eqb_spec (s_model s) m) as [<-|N]; auto. cbn [map]. rewrite IH. auto.
Qed.
Lemma renames_acyc : forall ren d d' m, DC d -> m < d_nm d -> renames ren d d' -> acyc (sub_factors d m) -> acyc (sub_factors d' m).
Proof.
  intros ren d d' m D M R A. rewrite (renames_sub_factors ren d d' m R). apply (acyc_rename _ (nth m (d_nsv d) 0)); auto.
  - intros vs v I J. eapply sub_factors_range; eauto.
  - destruct R as [_ [_ [_ [_ [_ [R _]]]]]]. intros a b Ha Hb Q. eapply R; eauto.
Qed.
Lemma copies_length : forall d us m idx, copies_of d us m idx -> length us = length idx.
Proof. intros d us m idx H. induction H; cbn; auto. Qed.
Lemma grows_wide : forall d d' m, DC d -> DC d' -> d_el d = [] -> grows fs d d' -> filter wide (sub_factors d' m) = filter wide (sub_factors d m).
Proof.
  intros d d' m D D' EL [_ [_ [_ [G [_ K]]]]]. unfold sub_factors. rewrite EL. cbn [map concat]. rewrite app_nil_r, filter_app, map_app, filter_app.
  assert (SH : forall l, Forall (fun s => length (s_idx s) <= 1) l -> filter wide (map s_idx (filter (fun s => s_model s =? m) l)) = []).
  { intros l F. induction F as [|s l Hs F IH]; auto. cbn [filter]. destruct (s_model s =? m); auto. cbn [map filter]. unfold wide at 1. destruct (Nat.ltb_spec 1 (length (s_idx s))); [lia|auto]. }
  rewrite (SH (concat (map snd (d_el d')))).
  2:{ apply Forall_forall. intros s I. apply in_concat in I. destruct I as [l [L1 L2]]. apply in_map_iff in L1. destruct L1 as [[key l'] [<- L1]]. destruct (K key l' L1) as [Q|Q]; [rewrite EL in Q; destruct Q|]. cbn in L2. destruct (dc_empty _ _ _ D' _ _ _ L1 L2) as [_ C]. apply copies_length in C. lia. }
  rewrite app_nil_r.
  assert (F2 : Forall2 (fun l l' => exists r, l' = l ++ r /\ Forall (fun s => length (s_idx s) <= 1) r) (d_fl d) (d_fl d')).
  { assert (Q : forall f, f < nf -> exists r, nth f (d_fl d') [] = nth f (d_fl d) [] ++ r /\ Forall (fun s => length (s_idx s) <= 1) r).
    { intros f Hf. destruct (G f) as [r [R1 R2]]. exists r. split; auto. apply Forall_forall. intros s I. assert (J : In s (nth f (d_fl d') [])) by (rewrite R1; apply in_or_app; auto). destruct (dc_factor _ _ _ D' _ _ J) as [_ C]. apply copies_length in C. rewrite R2 in C; [lia|]. intros ->. destruct I. }
    destruct (dc_nf _ _ _ D) as [_ L1], (dc_nf _ _ _ D') as [_ L2]. rewrite <- L1 in Q, L2. clear - Q L2. revert Q L2. generalize (d_fl d) as a, (d_fl d') as b. induction a as [|x a IH]; intros [|y b] Q L; cbn in L; try lia; constructor. { apply (Q 0). cbn. lia. } apply IH; auto. intros f Hf. apply (Q (S f)). cbn. lia. }
  clear G. induction F2 as [|l l' a b [r [-> R]] F IH]; auto. cbn [concat]. rewrite !filter_app, !map_app, !filter_app, IH, (SH r R), app_nil_r. auto.
Qed.

Lemma covers_renames : forall ren d d', renames ren d d' -> covers nv fs d -> covers nv fs d'.
Proof.
  intros ren d d' [_ [_ [_ [_ [_ [_ [V [F _]]]]]]]] [C1 C2]. split; intros i Hi; [rewrite V|rewrite F].
  - intros Q. apply (C1 i Hi). change (@nil (nat * nat)) with (map (fun p : nat * nat => (fst p, ren (fst p) (snd p))) []) in Q at 1. rewrite map_nth in Q. destruct (nth i (d_vl d) []); auto. discriminate.
  - intros Q. apply (C2 i Hi). change (@nil sub) with (map (fun s => mkSub (s_model s) (s_id s) (map (ren (s_model s)) (s_idx s))) []) in Q at 1. rewrite map_nth in Q. destruct (nth i (d_fl d) []); auto. discriminate.
Qed.
Lemma covers_grows : forall d d', grows fs d d' -> covers nv fs d -> covers nv fs d'.
Proof. intros d d' [V [_ [_ [G _]]]] [C1 C2]. split; intros i Hi. - rewrite V. auto. - destruct (G i) as [r [-> _]]. intros Q. apply app_eq_nil in Q. apply (C2 i Hi). tauto. Qed.

(** reorder, then complete *)
Lemma prepare_ok : forall d, DC d -> exists d1 d2, reorder d = Ret d1 /\ complete d1 = Ret d2 /\ DC d2 /\ ordered d2 /\ completed fs d2 /\ d_nm d2 = d_nm d /\
  (covers nv fs d -> covers nv fs d2) /\ (single d -> single d2) /\ (forall f, exists r, occurs_in d2 f = occurs_in d f ++ r /\ (r <> [] -> length (nth f fs []) = 1)) /\
  (d_el d = [] -> forall m, m < d_nm d -> acyc (sub_factors d m) -> acyc (sub_factors d2 m)).
Proof.
  intros d D. destruct (reorder_ok nv fs d D) as [ren [d1 [E1 [R [OR D1]]]]]. destruct (complete_ok nv fs d1 D1) as [d2 [E2 [D2 [G C]]]]. exists d1, d2. split; auto. split; auto. split; auto.
  assert (CE : forall v m k, copy_of d2 v m k <-> copy_of d1 v m k) by (intros; symmetry; apply (grows_copy fs); auto).
  split. { intros u v m k l A B. apply CE in A, B. eapply OR; eauto. } split; auto. split. { destruct G as [_ [_ [G _]]], R as [_ [_ [R _]]]. congruence. }
  split. { intros CV. eapply covers_grows; eauto. eapply covers_renames; eauto. } split. { intros S v m k l A B. apply CE in A, B. eapply (renames_single ren d d1); eauto. }
  split.
  - intros f. destruct G as [_ [_ [_ [G _]]]]. destruct (G f) as [r [R1 R2]]. exists (map s_model r). unfold occurs_in at 1. rewrite R1, map_app. fold (occurs_in d1 f). rewrite (renames_occurs ren d d1 f R). split; auto. intros Q. apply R2. intros ->. auto.
  - intros EL m Hm A. assert (EL1 : d_el d1 = []). { destruct R as [_ [_ [_ [_ [_ [_ [_ [_ R]]]]]]]]. rewrite R, EL. auto. } apply acyc_wide. rewrite (grows_wide d1 d2 m D1 D2 EL1 G). apply acyc_narrow. apply (renames_acyc ren d d1 m D Hm R A).
Qed.
End F.
