(** The linear program LPCplex builds. *)
From Coq Require Import ZArith QArith Qcanon Sorted.
From Verif Require Import Base Values GmView GmViewSpec GmViewProofs ShapeSpec ShapeProofs DualDecompModel FactorOpsModel LprSpec HoeProofs LprProofs LpcModel LpcSpec.
From Verif Require FactorGraphProofs DecompProofs.
Open Scope nat_scope.

Lemma sum_flat {A B} (h : A -> list B) (l : list A) F : sum_over (flat_map h l) F = sum_over l (fun a => sum_over (h a) F).
Proof. induction l as [|a l IH]; auto. cbn [flat_map]. rewrite sum_app, IH. reflexivity. Qed.
Fixpoint psum (k : nat -> nat) (v : nat) : nat := match v with 0 => 0 | S v => psum k v + k v end.
Lemma psum_mono k : forall v u, u <= v -> psum k u <= psum k v.
Proof. intros v u H. induction H as [|v H IH]; [lia|]. cbn. lia. Qed.
Lemma psum_lt k : forall v u, u < v -> psum k u + k u <= psum k v.
Proof. intros v u H. apply (psum_mono k v (S u)). lia. Qed.
Lemma map_seq_off b : forall m z, map (fun i => b + i) (seq z m) = seq (b + z) m.
Proof. induction m as [|m IH]; intros z; auto. cbn [seq map]. f_equal. rewrite IH. f_equal. lia. Qed.
Lemma keys_seq k : forall base n, flat_map (fun v => map (fun i => base + psum k v + i) (seq 0 (k v))) (seq 0 n) = seq base (psum k n).
Proof.
  intros base. induction n as [|n IH]; [reflexivity|]. rewrite seq_S, flat_map_app, IH. cbn [flat_map psum plus]. rewrite app_nil_r, seq_app. f_equal.
  rewrite map_seq_off, Nat.add_0_r. reflexivity.
Qed.
Lemma psum_list : forall l, psum (fun v => nth v l 0) (length l) = list_sum l.
Proof.
  intros l. assert (G : forall m, m <= length l -> psum (fun v => nth v l 0) m = list_sum (firstn m l)).
  { induction m as [|m IH]; intros H; [reflexivity|]. cbn [psum]. rewrite IH by lia. rewrite <- (firstn_skipn m (firstn (S m) l)) at 1. rewrite firstn_firstn, Nat.min_l by lia. rewrite list_sum_app. f_equal.
    rewrite (skipn_firstn_comm m (S m) l). replace (S m - m) with 1 by lia. destruct (skipn m l) as [|a r] eqn:E; [apply (f_equal (@length nat)) in E; rewrite skipn_length in E; cbn in E; lia|].
    cbn. rewrite <- (firstn_skipn m l), E, app_nth2; rewrite firstn_length, Nat.min_l by lia; [|lia]. rewrite Nat.sub_diag. cbn. lia. }
  rewrite G by lia. rewrite firstn_all. reflexivity.
Qed.
Lemma psum_map {A} (h : A -> nat) (d : A) : forall l, psum (fun v => nth v (map h l) 0) (length l) = list_sum (map h l).
Proof. intros l. rewrite <- (map_length h l) at 1. apply psum_list. Qed.
Lemma psum_ext k1 k2 : forall n, (forall v, v < n -> k1 v = k2 v) -> psum k1 n = psum k2 n.
Proof. induction n as [|n IH]; intros H; auto. cbn. rewrite IH by (intros; apply H; lia). rewrite H by lia. reflexivity. Qed.

(** ** Writing entries *)
Definition writes (o : list Qc) (l : list (nat * Qc)) : list Qc := fold_left (fun r e => upd r (fst e) (snd e)) l o.
Lemma writes_length : forall l o, length (writes o l) = length o.
Proof. induction l as [|e l IH]; intros o; auto. cbn [writes fold_left]. fold (writes (upd o (fst e) (snd e)) l). rewrite IH, length_upd. reflexivity. Qed.
Lemma setCoefs_ok : forall l o, Forall (fun e => fst e < length o) l -> setCoefs o l = Ret (writes o l).
Proof.
  induction l as [|e l IH]; intros o F; auto. apply Forall_cons_iff in F. destruct F as [F1 F]. unfold setCoefs. cbn [foldM]. rewrite wr_Ret by auto. cbn [bind].
  apply IH. rewrite length_upd. exact F.
Qed.
Lemma dot_upd : forall o i q p, i < length o -> dot (upd o i q) p = (dot o p + (q - nth i o 0) * nth i p 0)%Qc.
Proof.
  intros o i q p H. unfold dot. rewrite length_upd.
  rewrite (sum_ext _ _ (fun j => nth j o 0 * nth j p 0 + (if j =? i then (fun j => (q - nth j o 0) * nth j p 0) j else 0))%Qc).
  - rewrite sum_add. rewrite (sum_point (length o) i _ H). reflexivity.
  - intros j I. apply in_seq in I. destruct (Nat.eqb_spec j i) as [->|N]; [rewrite nth_upd_eq by auto|rewrite nth_upd_neq by auto]; ring.
Qed.
Lemma dot_writes : forall l o p, NoDup (map fst l) -> Forall (fun e => fst e < length o) l ->
  dot (writes o l) p = (dot o p + sum_over l (fun e => (snd e - nth (fst e) o 0) * nth (fst e) p 0))%Qc.
Proof.
  induction l as [|e l IH]; intros o p ND F; [change (writes o []) with o; change (sum_over [] _) with 0%Qc; ring|]. inversion ND as [|? ? NI ND']; subst. apply Forall_cons_iff in F. destruct F as [F1 F].
  cbn [writes fold_left]. fold (writes (upd o (fst e) (snd e)) l). rewrite IH; [|exact ND'|rewrite length_upd; exact F]. rewrite dot_upd by exact F1. rewrite sum_cons.
  rewrite (sum_ext l _ (fun a => (snd a - nth (fst a) o 0) * nth (fst a) p 0)%Qc); [ring|]. intros a I. rewrite nth_upd_neq; [reflexivity|]. intros E. apply NI. rewrite E. apply in_map. exact I.
Qed.
Lemma dot_repeat c n p : dot (repeat c n) p = (c * sum_over (seq 0 n) (fun i => nth i p 0))%Qc.
Proof.
  unfold dot. rewrite repeat_length. rewrite (sum_ext _ _ (fun i => nth i p 0 * c)%Qc); [rewrite sum_mul; ring|]. intros i I. apply in_seq in I.
  rewrite (nth_indep _ 0%Qc c) by (rewrite repeat_length; lia). rewrite nth_repeat. ring.
Qed.
Lemma dot_row : forall l n p, NoDup (map fst l) -> Forall (fun e => fst e < n) l -> dot (writes (repeat 0%Qc n) l) p = sum_over l (fun e => snd e * nth (fst e) p 0)%Qc.
Proof.
  intros l n p ND F. rewrite dot_writes; [|exact ND|eapply Forall_impl; [|exact F]; cbv beta; rewrite repeat_length; auto]. rewrite dot_repeat.
  rewrite (sum_ext l _ (fun e => snd e * nth (fst e) p 0)%Qc); [ring|]. intros e I. rewrite nth_repeat. ring.
Qed.
Lemma dot_full : forall l n c p, map fst l = seq 0 n -> dot (writes (repeat c n) l) p = sum_over l (fun e => snd e * nth (fst e) p 0)%Qc.
Proof.
  intros l n c p E. assert (F : Forall (fun e => fst e < n) l).
  { apply Forall_forall. intros e I. apply (in_map fst) in I. rewrite E in I. apply in_seq in I. lia. }
  rewrite dot_writes; [|rewrite E; apply seq_NoDup|eapply Forall_impl; [|exact F]; cbv beta; rewrite repeat_length; auto]. rewrite dot_repeat.
  rewrite (sum_ext l _ (fun e => snd e * nth (fst e) p 0 + - (nth (fst e) p 0 * c))%Qc).
  - rewrite sum_add, sum_opp, sum_mul. rewrite <- E, sum_map. ring.
  - intros e I. rewrite Forall_forall in F. specialize (F e I). rewrite (nth_indep _ 0%Qc c) by (rewrite repeat_length; lia). rewrite nth_repeat. ring.
Qed.

(** ** The coordinates of the loops *)
Lemma seq_blocks s : forall m, seq 0 (m * s) = flat_map (fun q => map (fun r => r + s * q) (seq 0 s)) (seq 0 m).
Proof.
  induction m as [|m IH]; [reflexivity|]. rewrite seq_S, flat_map_app, <- IH. cbn [flat_map plus]. rewrite app_nil_r. replace (S m * s) with (m * s + s) by lia. rewrite seq_app. f_equal.
  cbn [plus]. rewrite (map_ext (fun r => r + s * m) (fun r => m * s + r)) by (intros; lia). rewrite map_seq_off, Nat.add_0_r. reflexivity.
Qed.
Lemma loop_coords_ok : forall sh, loop_coords sh = map (coord_of sh) (seq 0 (size_of sh)).
Proof.
  induction sh as [|s sh IH]; [reflexivity|]. cbn [loop_coords size_of fold_right coord_of]. fold (size_of sh). rewrite IH. rewrite (Nat.mul_comm s), seq_blocks.
  rewrite flat_map_concat_map, map_map, <- flat_map_concat_map. generalize (seq 0 (size_of sh)) as l. intros l. induction l as [|q l IHl]; auto. cbn [flat_map]. rewrite map_app, <- IHl. f_equal.
  rewrite map_map. apply map_ext_in. intros r I. apply in_seq in I. cbn [coord_of].
  rewrite (Nat.mul_comm s q), Nat.mod_add by lia. rewrite Nat.mod_small by lia. rewrite Nat.div_add by lia. rewrite Nat.div_small by lia. reflexivity.
Qed.
Lemma shape_size_ok : forall sh, shape_size sh = size_of sh.
Proof.
  intros sh. unfold shape_size, size_of. assert (G : forall a, fold_left Nat.mul sh a = a * fold_right Nat.mul 1 sh); [|rewrite G; lia].
  induction sh as [|s sh IH]; intros a; cbn; [lia|]. rewrite IH. lia.
Qed.

(** ** The numbering of the LP variables *)
Section L.
Variable g : gmv Qc.
Hypothesis W : wf_gmv g.
Notation nv := (length (v_labels g)).
Notation nf := (length (v_factors g)).
Notation vars := (vars_of g).
Notation val := (fun_of g).
Definition lab (v : nat) : nat := nth v (v_labels g) 0.
Definition fsh (f : nat) : list nat := at_vars (v_labels g) (vars f).
Definition fsz (f : nat) : nat := if 2 <=? length (vars f) then size_of (fsh f) else 0.
Definition off (v : nat) : nat := psum lab v.
Definition NL : nat := list_sum (v_labels g).
Definition foff (f : nat) : nat := NL + psum fsz f.
Definition NN : nat := NL + psum fsz nf.
Definition fid (f : nat) : nat := match vars f with [] => 0 | [v] => off v | _ => foff f end.

Lemma off_NL : off nv = NL. Proof. apply psum_list. Qed.
Lemma off_lt v i : v < nv -> i < lab v -> off v + i < NL.
Proof. intros H I. rewrite <- off_NL. pose proof (psum_lt lab nv v H). unfold off. lia. Qed.
Lemma foff_lt f i : f < nf -> i < fsz f -> foff f + i < NN.
Proof. intros H I. pose proof (psum_lt fsz nf f H). unfold foff, NN. lia. Qed.
Lemma NL_NN : NL <= NN. Proof. unfold NN. lia. Qed.
Lemma lab_pos v : v < nv -> 0 < lab v.
Proof. intros H. destruct W as [_ P]. unfold positive in P. rewrite Forall_forall in P. apply P. apply nth_In. exact H. Qed.
Lemma var_in f m : m < length (vars f) -> nth m (vars f) 0 < nv.
Proof. apply (vars_nth g W). Qed.
Lemma fsh_length f : length (fsh f) = length (vars f). Proof. unfold fsh, at_vars. apply map_length. Qed.
Lemma fsh_nth f m : m < length (vars f) -> nth m (fsh f) 0 = lab (nth m (vars f) 0).
Proof. intros H. unfold fsh, at_vars. rewrite (nth_indep _ 0 (nth 0 (v_labels g) 0)) by (rewrite map_length; auto). rewrite (map_nth (fun v => nth v (v_labels g) 0)). reflexivity. Qed.
Lemma fsh_pos f : positive (fsh f).
Proof.
  apply Forall_forall. intros a I. apply (In_nth _ _ 0) in I. destruct I as (m & H & <-). rewrite fsh_length in H. rewrite fsh_nth by auto. apply lab_pos. apply var_in. exact H.
Qed.
Lemma NN_size : NN = lp_size g.
Proof.
  unfold NN, lp_size, NL. f_equal. set (h := fun fc : list nat * (list nat -> Qc) => if 2 <=? length (fst fc) then size_of (at_vars (v_labels g) (fst fc)) else 0).
  rewrite <- (psum_map h ([], fun _ => 0%Qc)). apply psum_ext. intros f H. unfold fsz, fsh, vars_of. destruct (nth_error (v_factors g) f) as [fc|] eqn:E; [|apply nth_error_None in E; lia].
  symmetry. apply nth_error_nth. rewrite nth_error_map, E. reflexivity.
Qed.
Lemma fshape_ok f : fshape g (vars f, val f) = Ret (fsh f).
Proof.
  unfold fshape. cbn [fst]. apply (DecompProofs.mapM_ok _ _ _ (fun v => nth v (v_labels g) 0)). intros v I. apply rd_nth. destruct (vars_ok g W f) as [_ F]. rewrite Forall_forall in F. apply F. exact I.
Qed.

Lemma enum_nodes_ok : enum_nodes g = (map off (seq 0 nv), NL).
Proof.
  unfold enum_nodes. rewrite <- off_NL.
  assert (G : forall m, m <= nv -> fold_left (fun (s : list nat * nat) k => (fst s ++ [snd s], snd s + k)) (firstn m (v_labels g)) ([], 0) = (map off (seq 0 m), off m)).
  { induction m as [|m IH]; intros H; [reflexivity|]. destruct (nth_error (v_labels g) m) as [k|] eqn:E; [|apply nth_error_None in E; lia].
    assert (FS : firstn (S m) (v_labels g) = firstn m (v_labels g) ++ [k]).
    { clear -E. revert m E. induction (v_labels g) as [|a l IH]; intros [|m] E; try discriminate; cbn in *; [injection E as ->; reflexivity|]. rewrite IH with (1 := E). reflexivity. }
    rewrite FS, fold_left_app, IH by lia. cbn [fold_left fst snd]. rewrite seq_S, map_app. cbn [map plus]. f_equal. unfold off. cbn [psum]. f_equal. unfold lab. symmetry. apply nth_error_nth. exact E. }
  rewrite <- (firstn_all (v_labels g)) at 1. apply G. lia.
Qed.

Definition un (j v : nat) : list nat := filter (fun f => if list_eq_dec Nat.eq_dec (vars f) [v] then true else false) (seq 0 j).
Definition cst (j : nat) : Qc := sum_over (filter (fun f => length (vars f) =? 0) (seq 0 j)) (fun f => val f []).
Definition en_ok (j : nat) (e : enum) : Prop :=
  length (en_factors e) = nf /\ (forall f, nth f (en_factors e) 0 = if f <? j then fid f else 0) /\
  en_unary e = map (un j) (seq 0 nv) /\ en_counter e = foff j /\ en_const e = cst j /\ en_elements e = psum fsz j.
Lemma enum_step j e : j < nf -> en_ok j e -> exists e', enum_factor g (map off (seq 0 nv)) e j = Ret e' /\ en_ok (S j) e'.
Proof.
  intros H (L & F & U & C & K & E). unfold enum_factor. rewrite (rd_factor g j H). cbn [bind fst snd].
  assert (NX : forall f q, length (vars j) <> 0 -> q = fid j -> nth f (upd (en_factors e) j q) 0 = if f <? S j then fid f else 0).
  { intros f q _ ->. destruct (Nat.eq_dec j f) as [<-|N]; [rewrite nth_upd_eq by lia; destruct (Nat.ltb_spec j (S j)); [reflexivity|lia]|].
    rewrite nth_upd_neq by auto. rewrite F. destruct (Nat.ltb_spec f j), (Nat.ltb_spec f (S j)); auto; lia. }
  assert (CS : length (vars j) <> 0 -> cst (S j) = cst j).
  { intros NZ. unfold cst. rewrite seq_S, filter_app, sum_app. cbn [filter plus]. destruct (Nat.eqb_spec (length (vars j)) 0); [contradiction|]. cbn. ring. }
  assert (US : forall v, un (S j) v = un j v ++ (if list_eq_dec Nat.eq_dec (vars j) [v] then [j] else [])).
  { intros v. unfold un. rewrite seq_S, filter_app. f_equal. cbn [filter plus]. destruct (list_eq_dec Nat.eq_dec (vars j) [v]); reflexivity. }
  destruct (vars j) as [|v [|w r]] eqn:V; cbn [length Nat.eqb].
  - eexists. split; [reflexivity|]. unfold en_ok. cbn [en_factors en_unary en_counter en_const en_elements]. split; [exact L|]. split.
    { intros f. rewrite F. destruct (Nat.ltb_spec f j), (Nat.ltb_spec f (S j)); auto; try lia. assert (f = j) as -> by lia. unfold fid. rewrite V. reflexivity. }
    assert (Z : fsz j = 0) by (unfold fsz; rewrite V; reflexivity). split; [|split; [|split]].
    + rewrite U. apply map_ext. intros v. rewrite US. destruct (list_eq_dec Nat.eq_dec [] [v]); [discriminate|]. rewrite app_nil_r. reflexivity.
    + rewrite C. unfold foff. cbn [psum]. rewrite Z. lia.
    + rewrite K. unfold cst. rewrite seq_S, filter_app, sum_app. cbn [filter plus]. rewrite V. cbn. ring.
    + rewrite E. cbn [psum]. lia.
  - assert (Hv : v < nv). { pose proof (var_in j 0) as Q. rewrite V in Q. cbn in Q. apply Q. lia. }
    unfold rd at 1. cbn [nth_error bind]. rewrite (rd_nth _ _ v []) by (rewrite U, map_length, seq_length; exact Hv). cbn [bind]. rewrite wr_Ret by (rewrite U, map_length, seq_length; exact Hv). cbn [bind].
    rewrite (rd_nth _ _ v (off 0)) by (rewrite map_length, seq_length; exact Hv). rewrite (map_nth off), seq_nth by exact Hv. cbn [bind plus]. rewrite wr_Ret by (rewrite L; exact H). cbn [bind].
    eexists. split; [reflexivity|]. unfold en_ok. cbn [en_factors en_unary en_counter en_const en_elements]. split; [rewrite length_upd; exact L|].
    split; [intros f; apply NX; [discriminate|unfold fid; rewrite V; reflexivity]|]. assert (Z : fsz j = 0) by (unfold fsz; rewrite V; reflexivity). split; [|split; [|split]].
    + apply (nth_ext _ _ [] []); [rewrite length_upd, U, !map_length; reflexivity|]. intros u Hu. rewrite length_upd, U, map_length, seq_length in Hu.
      assert (N1 : forall m, nth u (map (un m) (seq 0 nv)) [] = un m u). { intros m. rewrite (nth_indep _ [] (un m 0)) by (rewrite map_length, seq_length; exact Hu). rewrite (map_nth (un m)), seq_nth by exact Hu. reflexivity. }
      rewrite (N1 (S j)), US. destruct (Nat.eq_dec v u) as [<-|N].
      * rewrite nth_upd_eq by (rewrite U, map_length, seq_length; exact Hv). rewrite U, N1. destruct (list_eq_dec Nat.eq_dec [v] [v]); [reflexivity|contradiction].
      * rewrite nth_upd_neq by auto. rewrite U, N1. destruct (list_eq_dec Nat.eq_dec [v] [u]) as [Q|_]; [injection Q as ->; contradiction|]. rewrite app_nil_r. reflexivity.
    + rewrite C. unfold foff. cbn [psum]. rewrite Z. lia.
    + rewrite K. symmetry. apply CS. discriminate.
    + rewrite E. cbn [psum]. lia.
  - pose proof (fshape_ok j) as FS. rewrite V in FS. rewrite FS. cbn [bind]. rewrite wr_Ret by (rewrite L; exact H). cbn [bind]. rewrite shape_size_ok.
    assert (Z : fsz j = size_of (fsh j)) by (unfold fsz; rewrite V; reflexivity).
    eexists. split; [reflexivity|]. unfold en_ok. cbn [en_factors en_unary en_counter en_const en_elements]. split; [rewrite length_upd; exact L|].
    split; [intros f; apply NX; [discriminate|rewrite C; unfold fid; rewrite V; reflexivity]|]. split; [|split; [|split]].
    + rewrite U. apply map_ext. intros u. rewrite US. destruct (list_eq_dec Nat.eq_dec (v :: w :: r) [u]); [discriminate|]. rewrite app_nil_r. reflexivity.
    + rewrite C. unfold foff. cbn [psum]. rewrite Z. lia.
    + rewrite K. symmetry. apply CS. discriminate.
    + rewrite E. cbn [psum]. lia.
Qed.
Lemma enum_ok : exists e, enum_factors g (map off (seq 0 nv)) NL = Ret e /\ en_ok nf e.
Proof.
  unfold enum_factors. set (e0 := mkEnum _ _ _ _ _). assert (E0 : en_ok 0 e0).
  { unfold en_ok, e0. cbn [en_factors en_unary en_counter en_const en_elements]. split; [apply repeat_length|]. split; [intros f; rewrite nth_repeat; reflexivity|]. split; [|split; [unfold foff; cbn; lia|split; reflexivity]].
    assert (G : forall k z, repeat (@nil nat) k = map (un 0) (seq z k)) by (induction k as [|k IH]; intros z; cbn; [reflexivity|rewrite <- IH; reflexivity]). apply G. }
  assert (G : forall j, j <= nf -> exists e, foldM (enum_factor g (map off (seq 0 nv))) (seq 0 j) e0 = Ret e /\ en_ok j e); [|apply G; lia].
  induction j as [|j IH]; intros H; [exists e0; split; [reflexivity|exact E0]|]. destruct IH as (e & R & OK); [lia|]. destruct (enum_step j e) as (e' & R' & OK'); [lia|exact OK|]. exists e'. split; [|exact OK'].
  rewrite seq_S, foldM_app, R. cbn [bind foldM plus]. rewrite R'. reflexivity.
Qed.

(** ** The objective *)
Definition ucoef (v i : nat) : Qc := sum_over (un nf v) (fun f => val f [i]).
Definition nwrites : list (nat * Qc) := flat_map (fun v => map (fun i => (off v + i, ucoef v i)) (seq 0 (lab v))) (seq 0 nv).
Definition fwrites : list (nat * Qc) := flat_map (fun f => map (fun k => (foff f + k, val f (coord_of (fsh f) k))) (seq 0 (fsz f))) (seq 0 nf).
Definition OBJ (raw : Qc) : list Qc := writes (repeat raw NN) (nwrites ++ fwrites).
Lemma keys_ok : map fst (nwrites ++ fwrites) = seq 0 NN.
Proof.
  rewrite map_app. unfold nwrites, fwrites. rewrite !flat_map_concat_map, !concat_map, !map_map, <- !flat_map_concat_map.
  rewrite (flat_map_ext _ (fun v => map (fun i => 0 + psum lab v + i) (seq 0 (lab v)))) by (intros v; rewrite map_map; reflexivity). rewrite keys_seq.
  rewrite (flat_map_ext (fun f => map fst (map _ _)) (fun f => map (fun i => NL + psum fsz f + i) (seq 0 (fsz f)))) by (intros v; rewrite map_map; reflexivity). rewrite keys_seq.
  fold (off nv). rewrite off_NL. unfold NN. rewrite seq_app. reflexivity.
Qed.
Lemma writes_app o a b : writes o (a ++ b) = writes (writes o a) b. Proof. apply fold_left_app. Qed.
Lemma obj_label_ok v i o : v < nv -> i < lab v -> length o = NN ->
  obj_label g (map off (seq 0 nv)) (map (un nf) (seq 0 nv)) v o i = Ret (upd o (off v + i) (ucoef v i)).
Proof.
  intros H I L. unfold obj_label. rewrite (rd_nth _ _ v (un nf 0)) by (rewrite map_length, seq_length; exact H). rewrite (map_nth (un nf)), seq_nth by exact H. cbn [bind plus].
  rewrite (foldM_sum _ (fun f => val f [i])).
  2:{ intros f t If. apply filter_In in If. destruct If as [If _]. apply in_seq in If. rewrite (rd_factor g f) by lia. reflexivity. }
  cbn [bind]. rewrite (rd_nth _ _ v (off 0)) by (rewrite map_length, seq_length; exact H). rewrite (map_nth off), seq_nth by exact H. cbn [bind plus].
  rewrite wr_Ret by (rewrite L; pose proof (off_lt v i H I); pose proof NL_NN; lia). unfold ucoef. f_equal. f_equal. ring.
Qed.
Lemma obj_node_ok v o : v < nv -> length o = NN ->
  obj_node g (map off (seq 0 nv)) (map (un nf) (seq 0 nv)) o v = Ret (writes o (map (fun i => (off v + i, ucoef v i)) (seq 0 (lab v)))).
Proof.
  intros H L. unfold obj_node. rewrite (rd_nth _ _ v 0 H). cbn [bind]. fold (lab v).
  assert (G : forall m, m <= lab v -> foldM (obj_label g (map off (seq 0 nv)) (map (un nf) (seq 0 nv)) v) (seq 0 m) o = Ret (writes o (map (fun i => (off v + i, ucoef v i)) (seq 0 m)))); [|apply G; lia].
  induction m as [|m IH]; intros Hm; [reflexivity|]. rewrite seq_S, foldM_app, IH by lia. cbn [bind foldM plus]. rewrite obj_label_ok; [|exact H|lia|rewrite writes_length; exact L]. cbn [bind]. rewrite map_app, writes_app. reflexivity.
Qed.
Lemma obj_nodes_ok o : length o = NN -> foldM (obj_node g (map off (seq 0 nv)) (map (un nf) (seq 0 nv))) (seq 0 nv) o = Ret (writes o nwrites).
Proof.
  intros L. assert (G : forall m, m <= nv -> foldM (obj_node g (map off (seq 0 nv)) (map (un nf) (seq 0 nv))) (seq 0 m) o = Ret (writes o (flat_map (fun v => map (fun i => (off v + i, ucoef v i)) (seq 0 (lab v))) (seq 0 m)))); [|apply G; lia].
  induction m as [|m IH]; intros Hm; [reflexivity|]. rewrite seq_S, foldM_app, IH by lia. cbn [bind foldM plus]. rewrite obj_node_ok; [|lia|rewrite writes_length; exact L]. cbn [bind]. rewrite flat_map_app, writes_app. cbn [flat_map]. rewrite app_nil_r. reflexivity.
Qed.
Definition fids_ok (fs : list nat) : Prop := length fs = nf /\ forall f, f < nf -> nth f fs 0 = fid f.
Lemma fid_foff f : 2 <= length (vars f) -> fid f = foff f.
Proof. unfold fid. destruct (vars f) as [|v [|w r]]; cbn; lia. Qed.
Lemma obj_factor_ok fs f o : fids_ok fs -> f < nf -> length o = NN ->
  obj_factor g fs o f = Ret (writes o (map (fun k => (foff f + k, val f (coord_of (fsh f) k))) (seq 0 (fsz f)))).
Proof.
  intros [FL FN] H L. unfold obj_factor. rewrite (rd_factor g f H). cbn [bind fst snd]. unfold fsz. destruct (Nat.leb_spec 2 (length (vars f))) as [A|A]; [|reflexivity].
  rewrite fshape_ok. cbn [bind]. rewrite (rd_nth _ _ f 0) by (rewrite FL; exact H). cbn [bind]. rewrite (FN f H), (fid_foff f A), loop_coords_ok.
  assert (G : forall m, m <= size_of (fsh f) -> foldM (fun (s : list Qc * nat) c => o <- wr (fst s) (snd s) (val f c) ;; Ret (o, S (snd s))) (map (coord_of (fsh f)) (seq 0 m)) (o, foff f)
     = Ret (writes o (map (fun k => (foff f + k, val f (coord_of (fsh f) k))) (seq 0 m)), foff f + m)).
  { induction m as [|m IH]; intros Hm; [cbn; rewrite Nat.add_0_r; reflexivity|]. rewrite seq_S, !map_app, foldM_app, IH by lia. cbn [bind foldM plus map fst snd].
    rewrite wr_Ret. 2:{ rewrite writes_length, L. apply foff_lt; [exact H|]. unfold fsz. destruct (Nat.leb_spec 2 (length (vars f))); lia. } cbn [bind]. rewrite writes_app. cbn [writes fold_left fst snd]. rewrite Nat.add_succ_r. reflexivity. }
  rewrite G by lia. reflexivity.
Qed.
Lemma obj_factors_ok fs o : fids_ok fs -> length o = NN -> foldM (obj_factor g fs) (seq 0 nf) o = Ret (writes o fwrites).
Proof.
  intros FO L. assert (G : forall m, m <= nf -> foldM (obj_factor g fs) (seq 0 m) o = Ret (writes o (flat_map (fun f => map (fun k => (foff f + k, val f (coord_of (fsh f) k))) (seq 0 (fsz f))) (seq 0 m)))); [|apply G; lia].
  induction m as [|m IH]; intros Hm; [reflexivity|]. rewrite seq_S, foldM_app, IH by lia. cbn [bind foldM plus]. rewrite obj_factor_ok; [|exact FO|lia|rewrite writes_length; exact L]. cbn [bind]. rewrite flat_map_app, writes_app. cbn [flat_map]. rewrite app_nil_r. reflexivity.
Qed.
Lemma dot_obj raw p : dot (OBJ raw) p =
  (sum_over (seq 0 nv) (fun v => sum_over (seq 0 (lab v)) (fun i => ucoef v i * nth (off v + i) p 0)) +
   sum_over (seq 0 nf) (fun f => sum_over (seq 0 (fsz f)) (fun k => val f (coord_of (fsh f) k) * nth (foff f + k) p 0)))%Qc.
Proof.
  unfold OBJ. rewrite (dot_full _ _ _ _ keys_ok), sum_app. unfold nwrites, fwrites. rewrite !sum_flat. f_equal; apply sum_ext; intros a _; rewrite sum_map; reflexivity.
Qed.

(** ** The constraints *)
Definition nrow (v : nat) : list Qc := writes (repeat 0%Qc NN) (map (fun i => (off v + i, 1%Qc)) (seq 0 (lab v))).
Definition sel (f m i : nat) : list nat := filter (fun k => nth m (coord_of (fsh f) k) 0 =? i) (seq 0 (fsz f)).
Definition frow (f m i : nat) : list Qc := writes (repeat 0%Qc NN) ((off (nth m (vars f) 0) + i, Qcopp 1%Qc) :: map (fun k => (foff f + k, 1%Qc)) (sel f m i)).
Lemma nrow_ok v : v < nv -> node_row g (map off (seq 0 nv)) NN v = Ret (1%Qc, 1%Qc, nrow v).
Proof.
  intros H. unfold node_row. rewrite (rd_nth _ _ v 0 H). cbn [bind]. fold (lab v). rewrite (rd_nth _ _ v (off 0)) by (rewrite map_length, seq_length; exact H). rewrite (map_nth off), seq_nth by exact H. cbn [bind plus].
  rewrite setCoefs_ok; [reflexivity|]. apply Forall_forall. intros e I. apply in_map_iff in I. destruct I as (i & <- & I). apply in_seq in I. cbn [fst]. rewrite repeat_length. pose proof (off_lt v i H). pose proof NL_NN. lia.
Qed.
Lemma temp_ok f i m : map (fun e : list nat * nat => (snd e, 1%Qc)) (filter (fun e : list nat * nat => nth m (fst e) 0 =? i) (combine (loop_coords (fsh f)) (seq (foff f) (length (loop_coords (fsh f))))))
  = map (fun k => (foff f + k, 1%Qc)) (filter (fun k => nth m (coord_of (fsh f) k) 0 =? i) (seq 0 (size_of (fsh f)))).
Proof.
  rewrite loop_coords_ok, map_length, seq_length. generalize (foff f) as b. intros b.
  assert (G : forall n z, map (fun e : list nat * nat => (snd e, 1%Qc)) (filter (fun e : list nat * nat => nth m (fst e) 0 =? i) (combine (map (coord_of (fsh f)) (seq z n)) (seq (b + z) n)))
    = map (fun k => (b + k, 1%Qc)) (filter (fun k => nth m (coord_of (fsh f) k) 0 =? i) (seq z n))).
  { induction n as [|n IH]; intros z; auto. cbn [seq map combine filter fst snd]. rewrite <- Nat.add_succ_r. destruct (nth m (coord_of (fsh f) z) 0 =? i); cbn [map snd]; rewrite IH; reflexivity. }
  specialize (G (size_of (fsh f)) 0). rewrite Nat.add_0_r in G. exact G.
Qed.
Lemma frow_ok fs f m i : fids_ok fs -> f < nf -> 2 <= length (vars f) -> m < length (vars f) -> i < lab (nth m (vars f) 0) ->
  factor_row (map off (seq 0 nv)) NN (combine (loop_coords (fsh f)) (seq (foff f) (length (loop_coords (fsh f))))) m (nth m (vars f) 0) i = Ret (0%Qc, 0%Qc, frow f m i).
Proof.
  intros FO H A M I. pose proof (var_in f m M) as Hv. unfold factor_row. rewrite (rd_nth _ _ _ (off 0)) by (rewrite map_length, seq_length; exact Hv). rewrite (map_nth off), seq_nth by exact Hv. cbn [bind plus]. rewrite temp_ok.
  assert (Z : fsz f = size_of (fsh f)) by (unfold fsz; destruct (Nat.leb_spec 2 (length (vars f))); [reflexivity|lia]).
  rewrite setCoefs_ok; [unfold frow, sel; rewrite Z; reflexivity|]. rewrite repeat_length. constructor.
  - cbn [fst]. pose proof (off_lt _ i Hv I). pose proof NL_NN. lia.
  - apply Forall_forall. intros e J. apply in_map_iff in J. destruct J as (k & <- & J). apply filter_In in J. destruct J as [J _]. apply in_seq in J. cbn [fst]. apply foff_lt; [exact H|]. rewrite Z. lia.
Qed.
Definition frows (f : nat) : list (Qc * Qc * list Qc) :=
  if 2 <=? length (vars f) then flat_map (fun m => map (fun i => (0%Qc, 0%Qc, frow f m i)) (seq 0 (lab (nth m (vars f) 0)))) (seq 0 (length (vars f))) else [].
Lemma frows_ok fs f : fids_ok fs -> f < nf -> factor_rows g (map off (seq 0 nv)) fs NN f = Ret (frows f).
Proof.
  intros FO H. unfold factor_rows, frows. rewrite (rd_factor g f H). cbn [bind fst snd]. destruct (Nat.leb_spec 2 (length (vars f))) as [A|A], (Nat.ltb_spec 1 (length (vars f))) as [B|B]; try lia; [|reflexivity].
  rewrite fshape_ok. cbn [bind]. destruct FO as [FL FN]. rewrite (rd_nth _ _ f 0) by (rewrite FL; exact H). cbn [bind]. rewrite (FN f H), (fid_foff f A).
  rewrite (DecompProofs.mapM_ok _ _ _ (fun m => map (fun i => (0%Qc, 0%Qc, frow f m i)) (seq 0 (lab (nth m (vars f) 0))))).
  - cbn [bind]. rewrite <- flat_map_concat_map. reflexivity.
  - intros m I. apply in_seq in I. rewrite (rd_nth _ _ m 0) by lia. cbn [bind]. rewrite (rd_nth _ _ _ 0) by (apply var_in; lia). cbn [bind]. fold (lab (nth m (vars f) 0)). apply DecompProofs.mapM_ok.
    intros i J. apply in_seq in J. apply (frow_ok fs); [split; assumption|exact H|exact A|lia|lia].
Qed.
Lemma dot_nrow v p : v < nv -> dot (nrow v) p = sum_over (seq 0 (lab v)) (fun i => nth (off v + i) p 0%Qc).
Proof.
  intros H. unfold nrow. rewrite dot_row.
  - rewrite sum_map. apply sum_ext. intros i _. cbn [fst snd]. ring.
  - rewrite map_map. cbn [fst]. apply FinFun.Injective_map_NoDup; [intros a b; lia|apply seq_NoDup].
  - apply Forall_forall. intros e I. apply in_map_iff in I. destruct I as (i & <- & I). apply in_seq in I. cbn [fst]. pose proof (off_lt v i H). pose proof NL_NN. lia.
Qed.
Lemma dot_frow f m i p : f < nf -> m < length (vars f) -> i < lab (nth m (vars f) 0) ->
  dot (frow f m i) p = (sum_over (sel f m i) (fun k => nth (foff f + k) p 0) - nth (off (nth m (vars f) 0%nat) + i) p 0)%Qc.
Proof.
  intros H M I. pose proof (var_in f m M) as Hv. pose proof (off_lt _ i Hv I) as O. unfold frow. rewrite dot_row.
  - rewrite sum_cons, sum_map. cbn [fst snd]. rewrite (sum_ext _ (fun a => 1 * nth (foff f + a) p 0)%Qc (fun k => nth (foff f + k) p 0%Qc)) by (intros; ring). ring.
  - cbn [map fst]. rewrite map_map. cbn [fst]. constructor.
    + intros J. apply in_map_iff in J. destruct J as (k & E & _). unfold foff in E. lia.
    + apply FinFun.Injective_map_NoDup; [intros a b; lia|apply NoDup_filter; apply seq_NoDup].
  - constructor; [cbn [fst]; pose proof NL_NN; lia|]. apply Forall_forall. intros e J. apply in_map_iff in J. destruct J as (k & <- & J). apply filter_In in J. destruct J as [J _]. apply in_seq in J. cbn [fst]. apply foff_lt; [exact H|lia].
Qed.

(** ** The constructor *)
Definition ROWS : list (Qc * Qc * list Qc) := map (fun v => (1%Qc, 1%Qc, nrow v)) (seq 0 nv) ++ flat_map frows (seq 0 nf).
Lemma new_ok integer raw : exists fs, fids_ok fs /\
  lpc_new g integer raw = Ret (mkLpc (map off (seq 0 nv)) fs (cst nf) (mkLp (if integer then NL else 0) (OBJ raw) ROWS) false [] 0%Qc 0%Qc).
Proof.
  destruct enum_ok as (e & R & (L & F & U & C & K & E)). exists (en_factors e). assert (FO : fids_ok (en_factors e)).
  { split; [exact L|]. intros f H. rewrite F. destruct (Nat.ltb_spec f nf); [reflexivity|lia]. }
  split; [exact FO|]. unfold lpc_new. rewrite enum_nodes_ok, R. cbn [bind]. rewrite U, E. fold NL. change (NL + psum fsz nf) with NN.
  rewrite obj_nodes_ok by apply repeat_length. cbn [bind]. rewrite obj_factors_ok; [|exact FO|rewrite writes_length; apply repeat_length]. cbn [bind].
  rewrite (DecompProofs.mapM_ok _ _ _ (fun v => (1%Qc, 1%Qc, nrow v))) by (intros v I; apply in_seq in I; apply nrow_ok; lia). cbn [bind].
  rewrite (DecompProofs.mapM_ok _ _ _ frows) by (intros f I; apply in_seq in I; apply frows_ok; [exact FO|lia]). cbn [bind].
  rewrite K. unfold OBJ, ROWS. rewrite writes_app, <- flat_map_concat_map. reflexivity.
Qed.
Lemma OBJ_length raw : length (OBJ raw) = NN. Proof. unfold OBJ. rewrite writes_length. apply repeat_length. Qed.

Definition local_ok (p : list Qc) : Prop :=
  (forall v, v < nv -> sum_over (seq 0 (lab v)) (fun i => nth (off v + i) p 0%Qc) = 1%Qc) /\
  (forall f m i, f < nf -> 2 <= length (vars f) -> m < length (vars f) -> i < lab (nth m (vars f) 0) ->
     sum_over (sel f m i) (fun k => nth (foff f + k) p 0%Qc) = nth (off (nth m (vars f) 0) + i) p 0%Qc).
Lemma between a b : (a <= b)%Qc /\ (b <= a)%Qc <-> b = a.
Proof. split; [intros [A B]; apply Qcle_antisym; assumption|intros ->; split; apply Qcle_refl]. Qed.
Lemma rows_ok p : Forall (fun r : Qc * Qc * list Qc => let '(lo, hi, row) := r in (lo <= dot row p)%Qc /\ (dot row p <= hi)%Qc) ROWS <-> local_ok p.
Proof.
  unfold ROWS, local_ok. rewrite Forall_app. split.
  - intros [A B]. rewrite Forall_forall in A, B. split.
    + intros v H. rewrite <- dot_nrow by exact H. apply between. apply (A (1%Qc, 1%Qc, nrow v)). apply in_map_iff. exists v. split; [reflexivity|apply in_seq; lia].
    + intros f m i H A2 M I. assert (J : In (0%Qc, 0%Qc, frow f m i) (flat_map frows (seq 0 nf))).
      { apply in_flat_map. exists f. split; [apply in_seq; lia|]. unfold frows. destruct (Nat.leb_spec 2 (length (vars f))); [|lia]. apply in_flat_map. exists m. split; [apply in_seq; lia|]. apply in_map_iff. exists i. split; [reflexivity|apply in_seq; lia]. }
      apply B in J. cbv beta iota in J. apply between in J. rewrite dot_frow in J by assumption.
      revert J. generalize (sum_over (sel f m i) (fun k => nth (foff f + k) p 0%Qc)) as a. intros a. generalize (nth (off (nth m (vars f) 0) + i) p 0%Qc) as b. intros b J. rewrite <- (Qcplus_0_r b), <- J. ring.
  - intros [A B]. split; apply Forall_forall; intros r I.
    + apply in_map_iff in I. destruct I as (v & <- & I). apply in_seq in I. apply between. rewrite dot_nrow by lia. apply A. lia.
    + apply in_flat_map in I. destruct I as (f & If & I). apply in_seq in If. unfold frows in I. destruct (Nat.leb_spec 2 (length (vars f))) as [A2|]; [|destruct I]. apply in_flat_map in I. destruct I as (m & M & I). apply in_seq in M. apply in_map_iff in I. destruct I as (i & <- & I). apply in_seq in I.
      apply between. rewrite dot_frow by lia. rewrite B by lia. ring.
Qed.
End L.
