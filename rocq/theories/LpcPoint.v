(** Integral points of LPCplex's linear program are labelings. *)
From Coq Require Import ZArith QArith Qcanon Sorted.
From Verif Require Import Base Values GmView GmViewSpec GmViewProofs ShapeSpec ShapeProofs DualDecompModel FactorOpsModel LprSpec HoeProofs LprProofs LpcModel LpcSpec LpcProofs.
From Verif Require DecompProofs.
Open Scope nat_scope.

Lemma sum_nonneg {A} (l : list A) h : (forall a, In a l -> (0 <= h a)%Qc) -> (0 <= sum_over l h)%Qc.
Proof.
  induction l as [|a l IH]; intros H; [apply Qcle_refl|]. rewrite sum_cons. rewrite <- (Qcplus_0_r 0%Qc). apply Qcplus_le_compat; [apply H; left; reflexivity|apply IH; intros; apply H; right; assumption].
Qed.
Lemma sum_le_in {A} (l : list A) h a : (forall a, In a l -> (0 <= h a)%Qc) -> In a l -> (h a <= sum_over l h)%Qc.
Proof.
  induction l as [|b l IH]; intros H I; [destruct I|]. rewrite sum_cons. destruct I as [->|I].
  - rewrite <- (Qcplus_0_r (h a)) at 1. apply Qcplus_le_compat; [apply Qcle_refl|apply sum_nonneg; intros; apply H; right; assumption].
  - rewrite <- (Qcplus_0_l (h a)). apply Qcplus_le_compat; [apply H; left; reflexivity|apply IH; [intros; apply H; right; assumption|exact I]].
Qed.
Lemma zero_ne_one : 0%Qc <> 1%Qc. Proof. discriminate. Qed.
Lemma one_hot h : forall k, (forall i, i < k -> h i = 0%Qc \/ h i = 1%Qc) -> sum_over (seq 0 k) h = 1%Qc ->
  exists l, l < k /\ forall i, i < k -> h i = if i =? l then 1%Qc else 0%Qc.
Proof.
  induction k as [|k IH]; intros H S; [cbn in S; destruct (zero_ne_one S)|]. rewrite seq_S, sum_app in S. cbn [plus] in S. rewrite sum_cons in S. change (sum_over [] h) with 0%Qc in S. rewrite Qcplus_0_r in S.
  destruct (H k) as [E|E]; [lia| |]; rewrite E in S.
  - rewrite Qcplus_0_r in S. destruct IH as (l & L & Q); [intros; apply H; lia|exact S|]. exists l. split; [lia|]. intros i I. destruct (Nat.eq_dec i k) as [->|N]; [|apply Q; lia]. rewrite E. destruct (Nat.eqb_spec k l); [lia|reflexivity].
  - exists k. split; [lia|]. intros i I. destruct (Nat.eqb_spec i k) as [->|N]; [exact E|]. assert (Z : sum_over (seq 0 k) h = 0%Qc). { rewrite <- (Qcplus_0_r (sum_over (seq 0 k) h)), <- (Qcplus_opp_r 1%Qc), Qcplus_assoc, S. ring. }
    assert (NN : forall a, In a (seq 0 k) -> (0 <= h a)%Qc). { intros a J. apply in_seq in J. destruct (H a) as [->| ->]; [lia|apply Qcle_refl|discriminate]. }
    apply Qcle_antisym; [|apply NN; apply in_seq; lia]. rewrite <- Z. apply sum_le_in; [exact NN|apply in_seq; lia].
Qed.
Lemma choose : forall n (P : nat -> nat -> Prop), (forall v, v < n -> exists l, P v l) -> exists x, length x = n /\ forall v, v < n -> P v (nth v x 0).
Proof.
  induction n as [|n IH]; intros P H; [exists []; split; [reflexivity|intros v Hv; lia]|]. destruct (IH P) as (x & L & Q); [intros; apply H; lia|]. destruct (H n) as (l & Pl); [lia|]. exists (x ++ [l]). split; [rewrite app_length, L; cbn; lia|].
  intros v Hv. destruct (Nat.eq_dec v n) as [->|N]; [rewrite app_nth2, L, Nat.sub_diag by lia; exact Pl|rewrite app_nth1 by lia; apply Q; lia].
Qed.
Lemma in_shape_of : forall sh x, length x = length sh -> (forall v, v < length sh -> nth v x 0 < nth v sh 0) -> in_shape sh x.
Proof.
  induction sh as [|k sh IH]; intros [|a x] L H; try discriminate; constructor; [apply (H 0); cbn; lia|]. apply IH; [cbn in L; lia|]. intros v Hv. apply (H (S v)). cbn. lia.
Qed.
Lemma differ : forall a b : list nat, length a = length b -> a <> b -> exists m, m < length a /\ nth m a 0 <> nth m b 0.
Proof.
  induction a as [|u a IH]; intros [|w b] L N; try discriminate; [contradiction|]. destruct (Nat.eq_dec u w) as [->|NE]; [|exists 0; split; [cbn; lia|exact NE]]. destruct (IH b) as (m & M & D); [cbn in L; lia|congruence|]. exists (S m). split; [cbn; lia|exact D].
Qed.
Lemma nth_writes : forall l o j q, NoDup (map fst l) -> In (j, q) l -> j < length o -> nth j (writes o l) 0%Qc = q.
Proof.
  induction l as [|e l IH]; intros o j q ND I H; [destruct I|]. inversion ND as [|? ? NI ND']; subst. cbn [writes fold_left]. fold (writes (upd o (fst e) (snd e)) l). destruct I as [->|I].
  - cbn [fst snd] in *. assert (G : forall l o, ~ In j (map fst l) -> nth j (writes o l) 0%Qc = nth j o 0%Qc).
    { clear. induction l as [|e l IH]; intros o NI; auto. cbn [writes fold_left]. fold (writes (upd o (fst e) (snd e)) l). rewrite IH by (intros J; apply NI; right; exact J). apply nth_upd_neq. intros E. apply NI. left. exact E. }
    rewrite G by exact NI. apply nth_upd_eq. exact H.
  - apply IH; [exact ND'|exact I|rewrite length_upd; exact H].
Qed.

Section P.
Variable g : gmv Qc.
Hypothesis W : wf_gmv g.
Notation nv := (length (v_labels g)).
Notation nf := (length (v_factors g)).
Notation vars := (vars_of g).
Notation val := (fun_of g).
Notation lab := (lab g). Notation off := (off g). Notation foff := (foff g). Notation fsz := (fsz g). Notation fsh := (fsh g). Notation NL := (NL g). Notation NN := (NN g).

Definition cx (x : list nat) (f : nat) : list nat := at_vars x (vars f).
Definition point_entries (p : list Qc) (x : list nat) : Prop :=
  (forall v i, v < nv -> i < lab v -> nth (off v + i) p 0%Qc = if i =? nth v x 0 then 1%Qc else 0%Qc) /\
  (forall f k, f < nf -> k < fsz f -> nth (foff f + k) p 0%Qc = if k =? index_of (fsh f) (cx x f) then 1%Qc else 0%Qc).
Lemma fsz_2 f : 2 <= length (vars f) -> fsz f = size_of (fsh f).
Proof. intros A. unfold LpcProofs.fsz. destruct (Nat.leb_spec 2 (length (vars f))); [reflexivity|lia]. Qed.
Lemma fsz_0 f k : k < fsz f -> 2 <= length (vars f).
Proof. unfold LpcProofs.fsz. destruct (Nat.leb_spec 2 (length (vars f))); lia. Qed.
Lemma cx_length x f : length (cx x f) = length (vars f). Proof. apply map_length. Qed.
Lemma cx_nth x f m : m < length (vars f) -> nth m (cx x f) 0 = nth (nth m (vars f) 0) x 0.
Proof. intros H. unfold cx, at_vars. rewrite (nth_indep _ 0 (nth 0 x 0)) by (rewrite map_length; exact H). rewrite (map_nth (fun v => nth v x 0)). reflexivity. Qed.
Lemma cx_shape x f : labeling g x -> in_shape (fsh f) (cx x f).
Proof. intros H. apply (at_vars_shape g W x f H). Qed.
Lemma coord_lt f m k : m < length (vars f) -> nth m (coord_of (fsh f) k) 0 < lab (nth m (vars f) 0).
Proof.
  intros M. rewrite <- (fsh_nth g f m M). apply in_shape_at; [apply coord_of_in_shape; apply fsh_pos; exact W|rewrite fsh_length; exact M].
Qed.

Lemma integral_point p : local_ok g p -> (forall i, i < NN -> (0 <= nth i p 0)%Qc) -> (forall i, i < NL -> nth i p 0%Qc = 0%Qc \/ nth i p 0%Qc = 1%Qc) ->
  exists x, labeling g x /\ point_entries p x.
Proof.
  intros [LN LF] POS B.
  destruct (choose nv (fun v l => l < lab v /\ forall i, i < lab v -> nth (off v + i) p 0%Qc = if i =? l then 1%Qc else 0%Qc)) as (x & LX & X).
  { intros v H. apply (one_hot (fun i => nth (off v + i) p 0%Qc)); [intros i I; apply B; apply off_lt; assumption|apply LN; exact H]. }
  assert (LB : labeling g x). { apply in_shape_of; [exact LX|]. intros v H. apply (X v H). }
  exists x. split; [exact LB|]. split; [intros v i H I; apply (X v H); exact I|]. intros f k H K. pose proof (fsz_0 f k K) as A.
  assert (Z : forall k, k < fsz f -> coord_of (fsh f) k <> cx x f -> nth (foff f + k) p 0%Qc = 0%Qc).
  { clear k K. intros k K N. destruct (differ (coord_of (fsh f) k) (cx x f)) as (m & M & D); [rewrite coord_of_length, fsh_length, cx_length; reflexivity|exact N|]. rewrite coord_of_length, fsh_length in M.
    pose proof (coord_lt f m k M) as CL. specialize (LF f m (nth m (coord_of (fsh f) k) 0) H A M CL). rewrite cx_nth in D by exact M. destruct (X _ (var_in g W f m M)) as [_ XE]. rewrite (XE _ CL) in LF.
    destruct (Nat.eqb_spec (nth m (coord_of (fsh f) k) 0) (nth (nth m (vars f) 0) x 0)); [contradiction|].
    apply Qcle_antisym; [|apply POS; apply foff_lt; assumption]. apply (Qcle_trans _ (sum_over (sel g f m (nth m (coord_of (fsh f) k) 0)) (fun k => nth (foff f + k) p 0%Qc))); [|rewrite LF; apply Qcle_refl]. apply (sum_le_in _ (fun k => nth (foff f + k) p 0%Qc)).
    - intros a I. apply filter_In in I. destruct I as [I _]. apply in_seq in I. apply POS. apply foff_lt; [exact H|lia].
    - apply filter_In. split; [apply in_seq; lia|apply Nat.eqb_refl]. }
  destruct (Nat.eqb_spec k (index_of (fsh f) (cx x f))) as [->|N].
  - pose proof (cx_shape x f LB) as CS. assert (M : 0 < length (vars f)) by lia. pose proof (in_shape_at _ _ 0 CS) as CL. rewrite fsh_length in CL. specialize (CL M). rewrite fsh_nth in CL by exact M.
    specialize (LF f 0 (nth 0 (cx x f) 0) H A M CL). destruct (X _ (var_in g W f 0 M)) as [_ XE]. rewrite (XE _ CL) in LF. rewrite cx_nth in LF by exact M. rewrite Nat.eqb_refl in LF. rewrite <- LF. symmetry. unfold sel. rewrite sum_filter.
    rewrite (sum_ext _ _ (fun k => if k =? index_of (fsh f) (cx x f) then nth (foff f + k) p 0%Qc else 0%Qc)); [apply (sum_point _ _ (fun k => nth (foff f + k) p 0%Qc)); exact K|].
    intros k I. apply in_seq in I. destruct (Nat.eqb_spec k (index_of (fsh f) (cx x f))) as [->|N].
    + rewrite (coord_of_index _ _ CS), cx_nth, Nat.eqb_refl by exact M. reflexivity.
    + destruct (_ =? _); [|reflexivity]. apply Z; [lia|]. intros E. apply N. rewrite <- E. symmetry. apply index_of_coord; [apply fsh_pos; exact W|rewrite fsz_2 in I by exact A; lia].
  - apply Z; [exact K|]. intros E. apply N. rewrite <- E. symmetry. apply index_of_coord; [apply fsh_pos; exact W|rewrite fsz_2 in K by exact A; exact K].
Qed.
Lemma labeling_lt x v : labeling g x -> v < nv -> nth v x 0 < lab v.
Proof. intros H Hv. apply (in_shape_at (v_labels g) x v H Hv). Qed.
Lemma idx_lt x f : labeling g x -> 2 <= length (vars f) -> index_of (fsh f) (cx x f) < fsz f.
Proof. intros H A. rewrite fsz_2 by exact A. apply index_of_lt. apply cx_shape. exact H. Qed.
Lemma sum_one n l : l < n -> sum_over (seq 0 n) (fun i => if i =? l then 1%Qc else 0%Qc) = 1%Qc.
Proof. intros H. apply (sum_point n l (fun _ => 1%Qc) H). Qed.
Lemma point_local p x : labeling g x -> point_entries p x -> local_ok g p.
Proof.
  intros H [PN PF]. split.
  - intros v Hv. rewrite (sum_ext _ _ (fun i => if i =? nth v x 0 then 1%Qc else 0%Qc)) by (intros i I; apply in_seq in I; apply PN; [exact Hv|lia]). apply sum_one. apply labeling_lt; assumption.
  - intros f m i Hf A M I. pose proof (var_in g W f m M) as Hv. rewrite (PN _ i Hv I). unfold sel. rewrite sum_filter. set (k0 := index_of (fsh f) (cx x f)). pose proof (idx_lt x f H A) as K0. fold k0 in K0.
    rewrite (sum_ext _ _ (fun k => if k =? k0 then (fun _ => if i =? nth (nth m (vars f) 0) x 0 then 1%Qc else 0%Qc) k else 0%Qc)).
    + rewrite (sum_point _ k0 _ K0). reflexivity.
    + intros k J. apply in_seq in J. rewrite (PF f k Hf) by lia. fold k0. destruct (Nat.eqb_spec k k0) as [->|N]; [|destruct (_ =? i); reflexivity].
      unfold k0. rewrite coord_of_index by (apply cx_shape; exact H). rewrite cx_nth by exact M. rewrite Nat.eqb_sym. reflexivity.
Qed.
Lemma point_exists x : labeling g x -> exists p, length p = NN /\ point_entries p x /\ forall i, i < NN -> nth i p 0%Qc = 0%Qc \/ nth i p 0%Qc = 1%Qc.
Proof.
  intros H. set (nw := flat_map (fun v => map (fun i => (off v + i, if i =? nth v x 0 then 1%Qc else 0%Qc)) (seq 0 (lab v))) (seq 0 nv)).
  set (fw := flat_map (fun f => map (fun k => (foff f + k, if k =? index_of (fsh f) (cx x f) then 1%Qc else 0%Qc)) (seq 0 (fsz f))) (seq 0 nf)).
  assert (K : map fst (nw ++ fw) = seq 0 NN).
  { rewrite <- (keys_ok g). rewrite !map_app. unfold nw, fw, nwrites, fwrites. rewrite !flat_map_concat_map, !concat_map, !map_map. f_equal; f_equal; apply map_ext; intros a; rewrite !map_map; reflexivity. }
  assert (ND : NoDup (map fst (nw ++ fw))) by (rewrite K; apply seq_NoDup).
  exists (writes (repeat 0%Qc NN) (nw ++ fw)). split; [rewrite writes_length; apply repeat_length|]. split; [split|].
  - intros v i Hv I. apply nth_writes; [exact ND| |rewrite repeat_length; pose proof (off_lt g v i Hv I); pose proof (NL_NN g); lia]. apply in_or_app. left. apply in_flat_map. exists v. split; [apply in_seq; lia|]. apply in_map_iff. exists i. split; [reflexivity|apply in_seq; lia].
  - intros f k Hf I. apply nth_writes; [exact ND| |rewrite repeat_length; apply foff_lt; assumption]. apply in_or_app. right. apply in_flat_map. exists f. split; [apply in_seq; lia|]. apply in_map_iff. exists k. split; [reflexivity|apply in_seq; lia].
  - intros i I. assert (J : In i (map fst (nw ++ fw))) by (rewrite K; apply in_seq; lia). apply in_map_iff in J. destruct J as ([j q] & E & J). cbn [fst] in E. subst j. rewrite (nth_writes _ _ i q ND J) by (rewrite repeat_length; exact I).
    apply in_app_or in J. destruct J as [J|J]; apply in_flat_map in J; destruct J as (a & _ & J); apply in_map_iff in J; destruct J as (b & E & _); injection E as _ <-; destruct (_ =? _); auto.
Qed.
Lemma point_energy raw p x : labeling g x -> point_entries p x -> (dot (OBJ g raw) p + cst g nf)%Qc = total AdderQ g x.
Proof.
  intros H [PN PF]. rewrite dot_obj, (total_sum g).
  rewrite (sum_ext (seq 0 nv) _ (fun v => sum_over (seq 0 nf) (fun f => if list_eq_dec Nat.eq_dec (vars f) [v] then val f [nth v x 0] else 0%Qc))).
  2:{ intros v I. apply in_seq in I. rewrite (sum_ext _ _ (fun i => if i =? nth v x 0 then ucoef g v i else 0%Qc)).
    - rewrite (sum_point _ _ (ucoef g v)) by (apply labeling_lt; [exact H|lia]). unfold ucoef, un. rewrite sum_filter. apply sum_ext. intros f _. destruct (list_eq_dec Nat.eq_dec (vars f) [v]); reflexivity.
    - intros i J. apply in_seq in J. rewrite PN by lia. destruct (_ =? _); ring. }
  rewrite sum_swap. rewrite (sum_ext (seq 0 nf) (fun f => sum_over (seq 0 (fsz f)) _) (fun f => if 2 <=? length (vars f) then val f (cx x f) else 0%Qc)).
  2:{ intros f I. apply in_seq in I. destruct (Nat.leb_spec 2 (length (vars f))) as [A|A].
    - rewrite (sum_ext _ _ (fun k => if k =? index_of (fsh f) (cx x f) then val f (coord_of (fsh f) k) else 0%Qc)).
      + rewrite (sum_point _ _ (fun k => val f (coord_of (fsh f) k))) by (apply idx_lt; assumption). rewrite coord_of_index by (apply cx_shape; exact H). reflexivity.
      + intros k J. apply in_seq in J. rewrite PF by lia. destruct (_ =? _); ring.
    - unfold LpcProofs.fsz. destruct (Nat.leb_spec 2 (length (vars f))); [lia|]. reflexivity. }
  unfold cst. rewrite sum_filter, <- !sum_add. apply sum_ext. intros f I. apply in_seq in I. fold (cx x f). destruct (vars f) as [|v [|w r]] eqn:V; cbn [length Nat.eqb Nat.leb].
  - rewrite sum_zero; [unfold cx; rewrite V; cbn; ring|]. intros v _. destruct (list_eq_dec Nat.eq_dec [] [v]); [discriminate|reflexivity].
  - assert (Hv : v < nv). { pose proof (var_in g W f 0) as Q. rewrite V in Q. cbn in Q. apply Q. lia. }
    rewrite (sum_ext _ _ (fun u => if u =? v then (fun u => val f [nth u x 0]) u else 0%Qc)).
    + rewrite (sum_point _ v _ Hv). unfold cx. rewrite V. cbn. ring.
    + intros u _. destruct (list_eq_dec Nat.eq_dec [v] [u]) as [E|E]; [injection E as ->; rewrite Nat.eqb_refl; reflexivity|]. destruct (Nat.eqb_spec u v) as [->|]; [contradiction|reflexivity].
  - rewrite sum_zero; [ring|]. intros u _. destruct (list_eq_dec Nat.eq_dec (v :: w :: r) [u]); [discriminate|reflexivity].
Qed.
End P.
