(** Lemmas for C22, C25 and C36. *)
From Verif Require Import Base ShapeSpec ShapeProofs IndexingModel FunctionsModel FunctionsSpec.
From Coq Require Import Sorted.

Lemma mapM_rd_mid : forall A (l pre post : list A),
  mapM (fun i => rd (pre ++ l ++ post) (length pre + i)) (seq 0 (length l)) = Ret l.
Proof.
  intros A l. induction l as [|a l IH]; intros pre post; auto. cbn [seq length mapM].
  rewrite Nat.add_0_r, (rd_Ret _ _ _ a) by (rewrite nth_error_app2, Nat.sub_diag; auto). cbn [bind].
  specialize (IH (pre ++ [a]) post).
  assert (E : mapM (fun i => rd (pre ++ (a :: l) ++ post) (length pre + i)) (seq 1 (length l)) = Ret l).
  { rewrite <- IH. rewrite <- seq_shift.
    assert (G : forall (k : list nat) (f : nat -> outcome A), mapM f (map S k) = mapM (fun i => f (S i)) k).
    { clear. intros k f. induction k; cbn; auto. rewrite IHk. auto. }
    rewrite G, <- app_assoc. cbn [app]. rewrite app_length. cbn [length].
    assert (H : forall (k : list nat) (f g : nat -> outcome A), (forall i, f i = g i) -> mapM f k = mapM g k).
    { clear. intros k f g H. induction k; cbn; auto. rewrite IHk, H. auto. }
    apply H. intros i. f_equal. lia. }
  rewrite E. auto.
Qed.
Lemma mapM_ext : forall A B (f g : A -> outcome B) k, (forall i, In i k -> f i = g i) -> mapM f k = mapM g k.
Proof. intros A B f g k H. induction k; cbn; auto. rewrite IHk by (intros; apply H; right; auto). rewrite H by (left; auto). auto. Qed.
Lemma mapM_rd_all : forall A (l : list A), mapM (rd l) (seq 0 (length l)) = Ret l.
Proof. intros A l. pose proof (mapM_rd_mid A l [] []) as H. cbn [app length] in H. rewrite app_nil_r in H. exact H. Qed.
Lemma mapM_rd_front : forall A (l post : list A), mapM (rd (l ++ post)) (seq 0 (length l)) = Ret l.
Proof. intros A l post. apply (mapM_rd_mid A l [] post). Qed.
Lemma mapM_rd_S : forall A (x : A) (l post : list A), mapM (fun i => rd (x :: l ++ post) (S i)) (seq 0 (length l)) = Ret l.
Proof. intros A x l post. apply (mapM_rd_mid A l [x] post). Qed.

Lemma rd_hd : forall A (x : A) l, rd (x :: l) 0 = Ret x. Proof. auto. Qed.
Lemma has_shape_list : forall T F (ft : ftype T F) f (l sh : list nat),
  ft_dimension ft f = length l -> (forall i, ft_shape ft f i = rd l i) -> (has_shape ft f sh <-> sh = l).
Proof.
  intros T F ft f l sh HD HS. split.
  - intros [D S]. apply nth_ext with 0 0; [congruence|]. intros i Hi. specialize (S i Hi). rewrite HS in S. rewrite (rd_nth _ l i 0) in S by congruence. congruence.
  - intros ->. split; auto. intros i Hi. rewrite HS. apply rd_Ret. apply nth_error_nth'; auto.
Qed.

(** Strides. *)
Fixpoint strides_from (acc : nat) (sh : list nat) : list nat := match sh with [] => [] | s :: r => acc :: strides_from (acc * s) r end.
Lemma strides_from_length : forall sh acc, length (strides_from acc sh) = length sh.
Proof. induction sh; cbn; auto. Qed.
Lemma sparse_new_strides : forall T sh d, sp_strides (sparse_new T sh d) = strides_from 1 sh.
Proof.
  intros T sh d. unfold sparse_new. cbn [sp_strides].
  assert (G : forall sh l acc, fst (fold_left (fun (p : list nat * nat) s => (fst p ++ [snd p], snd p * s)) sh (l, acc)) = l ++ strides_from acc sh).
  { induction sh0 as [|s r IH]; intros l acc; cbn [fold_left strides_from fst snd]. { rewrite app_nil_r; auto. }
    rewrite IH, <- app_assoc. auto. }
  apply (G sh [] 1).
Qed.
Lemma size_of_app : forall a b, size_of (a ++ b) = size_of a * size_of b.
Proof. induction a; intros; cbn [app]; [unfold size_of; cbn; lia|]. unfold size_of in *. cbn [fold_right]. rewrite IHa. lia. Qed.
Lemma strides_nth : forall sh acc i, i < length sh -> nth_error (strides_from acc sh) i = Some (acc * size_of (firstn i sh)).
Proof.
  induction sh as [|s r IH]; intros acc i Hi; cbn [length] in Hi; [lia|]. destruct i; cbn [strides_from nth_error firstn].
  - unfold size_of; cbn. f_equal; lia.
  - rewrite IH by lia. unfold size_of; cbn [fold_right]. f_equal. lia.
Qed.

Section Sparse.
Variable T : Type.
Implicit Types (f : sparsef T).
Definition wf_sparse (sh : list nat) (d : T) f : Prop := sp_shape f = sh /\ sp_strides f = strides_from 1 sh /\ sp_default f = d.

Lemma key_index : forall sh d f c post, wf_sparse sh d f -> length c = length sh -> coordinateToKey T f (c ++ post) = Ret (index_of sh c).
Proof.
  intros sh d f c post (H1 & H2 & _) HL. unfold coordinateToKey. rewrite H1, H2.
  assert (G : forall r cr ps pc acc key, length pc = length ps -> length cr = length r ->
    foldM (fun key d => s <- rd (ps ++ strides_from acc r) d ;; x <- rd (pc ++ cr ++ post) d ;; Ret (key + s * x)) (seq (length ps) (length r)) key = Ret (key + acc * index_of r cr)).
  { induction r as [|s r IH]; intros [|x cr] ps pc acc key Hl Hr; cbn [length] in *; try lia; cbn [seq foldM strides_from].
    { cbn. f_equal; lia. }
    rewrite (rd_Ret _ _ _ acc) by (rewrite nth_error_app2, Nat.sub_diag; auto). cbn [bind app].
    rewrite (rd_Ret _ (pc ++ x :: cr ++ post) (length ps) x) by (rewrite <- Hl, nth_error_app2, Nat.sub_diag; auto). cbn [bind].
    specialize (IH cr (ps ++ [acc]) (pc ++ [x]) (acc * s) (key + acc * x)). rewrite <- !app_assoc in IH. cbn [app] in IH. rewrite !app_length in IH. cbn [length] in IH.
    rewrite (Nat.add_1_r (length ps)) in IH. rewrite IH by lia. cbn [index_of]. f_equal. lia. }
  specialize (G sh c [] [] 1 0 eq_refl HL). cbn [app length] in G. rewrite G. f_equal. lia.
Qed.
Lemma key_index0 : forall sh d f c, wf_sparse sh d f -> in_shape sh c -> coordinateToKey T f c = Ret (index_of sh c).
Proof. intros sh d f c H Hc. rewrite <- (app_nil_r c) at 1. eapply key_index; eauto. apply in_shape_length; auto. Qed.

Lemma coord_of_app : forall a s k, positive a -> 0 < s -> coord_of (a ++ [s]) k = coord_of a k ++ [(k / size_of a) mod s].
Proof.
  induction a as [|x a IH]; intros s k Ha Hs; cbn [app coord_of].
  - unfold size_of; cbn [fold_right]. rewrite Nat.div_1_r. auto.
  - apply Forall_cons_iff in Ha. destruct Ha as [Hx Ha]. rewrite IH by auto. f_equal. f_equal. f_equal.
    rewrite Nat.div_div by (pose proof (size_of_pos a Ha); lia). auto.
Qed.
Lemma key_coordinate : forall sh d f key c, wf_sparse sh d f -> positive sh -> key < size_of sh -> length c = length sh ->
  keyToCoordinate T f key c = Ret (coord_of sh key).
Proof.
  intros sh d f key c (H1 & H2 & _) HP HK HL. unfold keyToCoordinate. rewrite H1, H2. cbv zeta. set (n := length sh).
  destruct (n =? 1) eqn:E1.
  { apply Nat.eqb_eq in E1. unfold n in E1. destruct sh as [|s [|]]; cbn in E1; try lia. destruct c as [|x [|]]; cbn in HL; try lia.
    cbn [coord_of]. unfold size_of in HK. cbn in HK. rewrite Nat.mod_small by lia. rewrite (wr_Ret _ _ 0) by (cbn; lia). auto. }
  clear E1.
  assert (G : forall m c key, m <= n -> key < size_of (firstn m sh) -> length c = n ->
     exists z, foldM (fun (p : list nat * nat) d =>
                      let '(c, keyRest) := p in
                      let dim := (n - 1) - d in
                      s <- rd (strides_from 1 sh) dim ;;
                      if s =? 0 then Undef
                      else let q := keyRest / s in
                           c <- wr c dim q ;; Ret (c, keyRest - q * s)) (seq (n - m) m) (c, key) = Ret (coord_of (firstn m sh) key ++ skipn m c, z)).
  { clear key c HK HL. induction m as [|m IH]; intros c key Hm HK HL.
    { exists key. auto. }
    cbn [seq foldM]. replace (n - 1 - (n - S m)) with m by lia.
    assert (EF : firstn (S m) sh = firstn m sh ++ [nth m sh 0]).
    {
      revert Hm. unfold n. clear. revert m. induction sh as [|a sh IH]; intros [|m] H; cbn [length] in *; try lia; auto.
      cbn [firstn app]. f_equal. cbn [nth]. apply IH; lia. }
    assert (HPm : positive (firstn m sh)). { unfold positive in *. rewrite Forall_forall in *. intros x Hx. apply HP. rewrite <- (firstn_skipn m sh). apply in_or_app; auto. }
    assert (HPn : 0 < nth m sh 0). { unfold positive in HP. rewrite Forall_forall in HP. apply HP. apply nth_In. unfold n in *; lia. }
    rewrite (rd_Ret _ _ _ _ (strides_nth sh 1 m ltac:(unfold n in *; lia))). cbn [bind]. rewrite Nat.mul_1_l.
    pose proof (size_of_pos _ HPm) as HS. destruct (Nat.eqb_spec (size_of (firstn m sh)) 0); [lia|].
    rewrite wr_Ret by (unfold n in *; lia). cbn [bind]. replace (S (n - S m)) with (n - m) by lia.
    rewrite EF, size_of_app in HK. unfold size_of in HK at 2. cbn [fold_right] in HK.
    assert (EM : key - key / size_of (firstn m sh) * size_of (firstn m sh) = key mod size_of (firstn m sh)) by (rewrite Nat.mod_eq by lia; lia).
    rewrite EM.
    destruct (IH (upd c m (key / size_of (firstn m sh))) (key mod size_of (firstn m sh))) as [z Hz]; try lia.
    { apply Nat.mod_upper_bound; lia. } { rewrite length_upd; auto. }
    exists z. etransitivity; [exact Hz|]. rewrite EF, coord_of_app by auto. f_equal. f_equal. rewrite <- app_assoc. rewrite coord_of_mod by auto. f_equal. cbn [app].
    rewrite (Nat.mod_small (_ / _)) by (apply Nat.div_lt_upper_bound; nia).
    assert (GU : forall A (l : list A) m v, m < length l -> skipn m (upd l m v) = v :: skipn (S m) l).
    { clear. induction l as [|a l IH]; intros m v H; cbn [length] in H; [lia|]. destruct m; cbn; auto. apply IH; lia. }
    apply GU. unfold n in *; lia. }
  specialize (G n c key (le_n _)). unfold n in G at 1. rewrite firstn_all in G. destruct (G HK HL) as [z Hz]. rewrite Nat.sub_diag in Hz. rewrite Hz. cbn [bind].
  f_equal. rewrite skipn_all2 by (unfold n in *; lia). unfold n. rewrite firstn_all, app_nil_r. auto.
Qed.

(** Maps. *)
Definition sorted_keys (m : list (nat * T)) : Prop := StronglySorted lt (map fst m).
Lemma map_insert_keys : forall k v m x, In x (map fst (map_insert T k v m)) -> x = k \/ In x (map fst m).
Proof.
  intros k v m x. induction m as [|[q w] r IH]; cbn [map_insert map fst In]. { intros [X|[]]; auto. }
  destruct (k <? q); [cbn [map fst In]; intros [X|[X|X]]; subst; auto|]. destruct (k =? q); cbn [map fst In]; intros [X|X]; subst; auto. destruct (IH X); auto.
Qed.
Lemma map_insert_sorted : forall k v m, sorted_keys m -> sorted_keys (map_insert T k v m).
Proof.
  intros k v m. unfold sorted_keys. induction m as [|[q w] r IH]; cbn [map_insert map fst]; intros H. { repeat constructor. }
  apply StronglySorted_inv in H as H2. destruct H2 as [HS HF].
  destruct (Nat.ltb_spec k q).
  - cbn. constructor; auto. constructor; auto. rewrite Forall_forall in *. intros x Hx. specialize (HF x Hx). cbn in *; lia.
  - destruct (Nat.eqb_spec k q); auto. cbn. constructor; auto. rewrite Forall_forall in *. intros x Hx. apply map_insert_keys in Hx. destruct Hx as [->|Hx]; [lia|]. apply HF; auto.
Qed.
Lemma map_find_notin : forall k m, ~ In k (map fst m) -> map_find T k m = None.
Proof. intros k m H. induction m as [|[q w] r IH]; cbn in *; auto. destruct (Nat.eqb_spec q k); [exfalso; auto|]. apply IH. auto. Qed.
Lemma map_find_insert : forall k v m x, sorted_keys m ->
  map_find T x (map_insert T k v m) = match map_find T x m with Some w => Some w | None => if k =? x then Some v else None end.
Proof.
  intros k v m x. unfold sorted_keys. induction m as [|[q w] r IH]; cbn [map_insert map map_find]; intros H.
  { destruct (k =? x) eqn:E; cbn [map_find]; try rewrite E; auto. }
  apply StronglySorted_inv in H. destruct H as [HS HF]. cbn [fst] in *. rewrite Forall_forall in HF.
  destruct (Nat.ltb_spec k q); cbn [map_find].
  - destruct (Nat.eqb_spec k x).
    + subst. destruct (Nat.eqb_spec q x); [lia|]. rewrite map_find_notin; auto. intros Hx. specialize (HF x Hx); lia.
    + destruct (q =? x); auto. destruct (map_find T x r); auto.
  - destruct (Nat.eqb_spec k q); cbn [map_find].
    + subst. destruct (Nat.eqb_spec q x); auto. destruct (map_find T x r); auto.
    + destruct (Nat.eqb_spec q x); auto.
Qed.
Lemma map_insert_last : forall k v m, (forall x, In x (map fst m) -> x < k) -> map_insert T k v m = m ++ [(k, v)].
Proof.
  intros k v m H. induction m as [|[q w] r IH]; cbn [map_insert app]; auto. assert (q < k) by (apply H; left; auto).
  destruct (Nat.ltb_spec k q); [lia|]. destruct (Nat.eqb_spec k q); [lia|]. rewrite IH; auto. intros; apply H; right; auto.
Qed.

Lemma index_of_inj : forall sh a b, in_shape sh a -> in_shape sh b -> index_of sh a = index_of sh b -> a = b.
Proof. intros sh a b Ha Hb E. rewrite <- (coord_of_index sh a), <- (coord_of_index sh b); auto. Qed.

Lemma sparse_run_spec : forall sh d ins, Forall (in_shape sh) (map fst ins) ->
  exists f, sparse_run sh d ins = Ret f /\ wf_sparse sh d f /\ sorted_keys (sp_map f) /\
    forall c, in_shape sh c -> valueFromKey T f (index_of sh c) = inserted d ins c.
Proof.
  intros sh d ins. induction ins as [|[c0 v0] ins IH] using rev_ind; intros H.
  - exists (sparse_new T sh d). split; auto. split. { split; [auto|split; auto]. apply sparse_new_strides. } split. { constructor. } intros; auto.
  - rewrite map_app in H. apply Forall_app in H. destruct H as [H1 H2]. cbn in H2. apply Forall_cons_iff in H2. destruct H2 as [H2 _].
    destruct (IH H1) as (f & R & W & S & V). unfold sparse_run in *. rewrite foldM_app, R. cbn [bind foldM fst snd]. unfold sparse_insert.
    rewrite (key_index0 sh d f c0 W H2). cbn [bind]. eexists; split; [reflexivity|]. destruct W as (W1 & W2 & W3).
    split. { unfold wf_sparse. cbn. auto. } cbn [sp_map]. split. { apply map_insert_sorted; auto. }
    intros c Hc. specialize (V c Hc). unfold valueFromKey in *. cbn [sp_map sp_default]. rewrite map_find_insert by auto.
    assert (GA : forall P (a b : list (list nat * T)), find P (a ++ b) = match find P a with Some x => Some x | None => find P b end).
    { clear. intros P a b. induction a; cbn; auto. destruct (P a); auto. }
    unfold inserted in *. rewrite GA. cbn [find fst].
    assert (NF : map_find T (index_of sh c) (sp_map f) = None <-> find (fun p => if list_eq_dec Nat.eq_dec (fst p) c then true else false) ins = None).
    { clear V. revert f R W1 W2 W3 S. clear H2 v0 c0 GA. clear IH. revert H1. induction ins as [|[c1 v1] ins IH] using rev_ind; intros H1 f R W1 W2 W3 S.
      - cbn in R. injection R as <-. cbn. tauto.
      - rewrite map_app in H1. apply Forall_app in H1. destruct H1 as [H1 H2]. cbn in H2. apply Forall_cons_iff in H2. destruct H2 as [H2 _].
        rewrite foldM_app in R. destruct (foldM (fun f p => sparse_insert T f (fst p) (snd p)) ins (sparse_new T sh d)) as [g| | |] eqn:R0; cbn in R; try discriminate.
        unfold sparse_insert in R. destruct (coordinateToKey T g c1) as [k| | |] eqn:K; cbn in R; try discriminate. injection R as <-.
        cbn in *.
        assert (SG : wf_sparse sh d g /\ sorted_keys (sp_map g)).
        { split; [unfold wf_sparse; auto|]. clear - R0. assert (GS : forall ins g0 g, sorted_keys (sp_map g0) -> foldM (fun f p => sparse_insert T f (fst p) (snd p)) ins g0 = Ret g -> sorted_keys (sp_map g)).
          { clear. induction ins as [|p ins IH]; intros g0 g S R; cbn in R. { injection R as <-; auto. }
            unfold sparse_insert in R at 1. destruct (coordinateToKey T g0 (fst p)); cbn in R; try discriminate. eapply IH; [|exact R]. cbn. apply map_insert_sorted; auto. }
          eapply GS; [|exact R0]. constructor. }
        destruct SG as [WG SG]. rewrite (key_index0 sh d g c1 WG H2) in K. injection K as <-.
        assert (GA : forall P (a b : list (list nat * T)), find P (a ++ b) = match find P a with Some x => Some x | None => find P b end).
        { clear. intros P a b. induction a; cbn; auto. destruct (P a); auto. }
        rewrite map_find_insert by auto. rewrite GA. cbn [find fst]. specialize (IH H1 g eq_refl W1 W2 W3 SG).
        destruct (map_find T (index_of sh c) (sp_map g)); destruct (find _ ins); cbn in IH |- *; try (split; intros X; try discriminate; destruct IH; intuition discriminate).
        destruct (Nat.eqb_spec (index_of sh c1) (index_of sh c)) as [E|E]; destruct (list_eq_dec Nat.eq_dec c1 c) as [E'|E']; try tauto; try (split; discriminate).
        + apply index_of_inj in E; auto. contradiction.
        + subst; contradiction. }
    destruct (map_find T (index_of sh c) (sp_map f)) eqn:EF; destruct (find _ ins) eqn:EI.
    + auto.
    + destruct NF as [_ NF]. specialize (NF eq_refl). discriminate.
    + destruct NF as [NF _]. specialize (NF eq_refl). discriminate.
    + destruct (Nat.eqb_spec (index_of sh c0) (index_of sh c)) as [E|E]; destruct (list_eq_dec Nat.eq_dec c0 c) as [E'|E']; auto.
      * apply index_of_inj in E; auto. contradiction.
      * subst; contradiction.
Qed.
Lemma sparse_call_spec : forall sh d ins f c, Forall (in_shape sh) (map fst ins) -> sparse_run sh d ins = Ret f -> in_shape sh c ->
  sparse_call T f c = Ret (inserted d ins c).
Proof.
  intros sh d ins f c H R Hc. destruct (sparse_run_spec sh d ins H) as (f' & R' & W & S & V). rewrite R in R'. injection R' as <-.
  unfold sparse_call. rewrite (key_index0 sh d f c W Hc). cbn. rewrite V; auto.
Qed.

Lemma map_rebuild : forall (m pre : list (nat * T)) (RK : nat -> outcome nat) (RV : nat -> outcome T), sorted_keys (pre ++ m) ->
  (forall i p, nth_error (pre ++ m) i = Some p -> RK i = Ret (fst p) /\ RV i = Ret (snd p)) ->
  foldM (fun m i => k <- RK i ;; v <- RV i ;; Ret (map_insert T k v m)) (seq (length pre) (length m)) pre = Ret (pre ++ m).
Proof.
  induction m as [|p m IH]; intros pre RK RV HS HR; cbn [length seq foldM]. { rewrite app_nil_r; auto. }
  destruct (HR (length pre) p) as [-> ->]. { rewrite nth_error_app2, Nat.sub_diag; auto. } cbn [bind].
  rewrite map_insert_last.
  - specialize (IH (pre ++ [p]) RK RV). rewrite <- app_assoc in IH. cbn [app] in IH. rewrite app_length in IH. cbn [length] in IH. rewrite Nat.add_1_r in IH.
    replace (fst p, snd p) with p by (destruct p; auto). apply IH; auto.
  - intros x Hx. unfold sorted_keys in HS. rewrite map_app in HS. cbn in HS. clear - HS Hx.
    induction (map fst pre) as [|a l IH]; cbn in *; [contradiction|]. apply StronglySorted_inv in HS. destruct HS as [HS HF]. destruct Hx as [->|Hx]; auto.
    rewrite Forall_forall in HF. apply HF. apply in_or_app; right; left; auto.
Qed.
End Sparse.
