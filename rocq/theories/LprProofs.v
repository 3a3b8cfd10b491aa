(** Reparametrizations: their shape, values, and the value of the reparametrized model. *)
From Coq Require Import ZArith QArith Qcanon Sorted.
From Verif Require Import Base Values GmView GmViewSpec GmViewProofs ShapeSpec ShapeProofs DualDecompModel LprModel LprSpec HoeProofs.
From Verif Require FuseMoves.
Open Scope nat_scope.

(** ** Sums *)
Lemma sum_cons {A} (a : A) l h : sum_over (a :: l) h = (h a + sum_over l h)%Qc. Proof. auto. Qed.
Lemma sum_ext {A} (l : list A) h1 h2 : (forall a, In a l -> h1 a = h2 a) -> sum_over l h1 = sum_over l h2.
Proof. intros H. induction l as [|a l IH]; auto. rewrite !sum_cons, H by (left; auto). rewrite IH; auto. intros; apply H; right; auto. Qed.
Lemma sum_add {A} (l : list A) h1 h2 : sum_over l (fun a => h1 a + h2 a)%Qc = (sum_over l h1 + sum_over l h2)%Qc.
Proof. induction l as [|a l IH]; [cbn; ring|]. rewrite !sum_cons, IH. ring. Qed.
Lemma sum_opp {A} (l : list A) h : sum_over l (fun a => - h a)%Qc = (- sum_over l h)%Qc.
Proof. induction l as [|a l IH]; [cbn; ring|]. rewrite !sum_cons, IH. ring. Qed.
Lemma sum_mul {A} (l : list A) h c : sum_over l (fun a => h a * c)%Qc = (sum_over l h * c)%Qc.
Proof. induction l as [|a l IH]; [cbn; ring|]. rewrite !sum_cons, IH. ring. Qed.
Lemma sum_zero {A} (l : list A) h : (forall a, In a l -> h a = 0%Qc) -> sum_over l h = 0%Qc.
Proof. intros H. rewrite (sum_ext l h (fun _ => 0%Qc) H). clear H. induction l as [|a l IH]; auto. rewrite sum_cons, IH. ring. Qed.
Lemma sum_swap {A B} (l : list A) (m : list B) h : sum_over l (fun a => sum_over m (h a)) = sum_over m (fun b => sum_over l (fun a => h a b)).
Proof. induction l as [|a l IH]; [symmetry; apply sum_zero; auto|]. rewrite sum_cons, IH, <- sum_add. auto. Qed.
Lemma sum_filter {A} (p : A -> bool) (l : list A) h : sum_over (filter p l) h = sum_over l (fun a => if p a then h a else 0%Qc).
Proof. induction l as [|a l IH]; auto. cbn [filter]. destruct (p a) eqn:E; rewrite ?sum_cons, E, IH; ring. Qed.
Lemma sum_map {A B} (g : A -> B) (l : list A) h : sum_over (map g l) h = sum_over l (fun a => h (g a)).
Proof. induction l as [|a l IH]; auto. cbn [map]. rewrite !sum_cons, IH. auto. Qed.
Lemma sum_app {A} (l m : list A) h : sum_over (l ++ m) h = (sum_over l h + sum_over m h)%Qc.
Proof. induction l as [|a l IH]; [cbn [app]; unfold sum_over at 2; cbn; ring|]. cbn [app]. rewrite !sum_cons, IH. ring. Qed.

Definition mem (v : nat) (l : list nat) : bool := existsb (Nat.eqb v) l.
Lemma mem_In : forall v l, mem v l = true <-> In v l.
Proof.
  intros v l. unfold mem. rewrite existsb_exists. split.
  - intros (y & I & E). apply Nat.eqb_eq in E. subst. auto.
  - intros I. exists v. split; auto. apply Nat.eqb_refl.
Qed.
Lemma sum_point : forall n v h, v < n -> sum_over (seq 0 n) (fun u => if u =? v then h u else 0%Qc) = h v.
Proof.
  induction n as [|n IH]; intros v h H; [lia|]. rewrite seq_S, sum_app. cbn [sum_over fold_right plus]. destruct (Nat.eqb_spec n v) as [->|N].
  - rewrite sum_zero; [ring|]. intros a I. apply in_seq in I. destruct (Nat.eqb_spec a v); auto; lia.
  - rewrite IH by lia. ring.
Qed.
Lemma sum_mem : forall n l h, NoDup l -> Forall (fun v => v < n) l ->
  sum_over l h = sum_over (seq 0 n) (fun v => if mem v l then h v else 0%Qc).
Proof.
  intros n l h ND. induction ND as [|v l NI ND IH]; intros F.
  - cbn [mem existsb]. symmetry. apply sum_zero. auto.
  - apply Forall_cons_iff in F. destruct F as [Hv F]. cbn [sum_over fold_right]. fold (sum_over l h). rewrite IH by auto.
    rewrite <- (sum_point n v h Hv), <- sum_add. apply sum_ext. intros u _. cbn [mem existsb]. fold (mem u l).
    destruct (Nat.eqb_spec u v) as [->|N]; cbn [orb].
    + destruct (mem v l) eqn:E; [apply mem_In in E; contradiction|ring].
    + ring.
Qed.

Lemma foldM_sum : forall {A} (step : Qc -> A -> outcome Qc) (h : A -> Qc) (l : list A) s,
  (forall a s, In a l -> step s a = Ret (s + h a)%Qc) -> foldM step l s = Ret (s + sum_over l h)%Qc.
Proof.
  intros A step h l. induction l as [|a l IH]; intros s H; cbn [foldM].
  - f_equal. cbn. ring.
  - rewrite H by (left; auto). cbn [bind]. rewrite IH by (intros; apply H; right; auto). f_equal. cbn. fold (sum_over l h). ring.
Qed.

Lemma in_shape_at : forall sh c k, in_shape sh c -> k < length sh -> nth k c 0 < nth k sh 0.
Proof. intros sh c k S. revert k. induction S as [|a b c sh Hab S IH]; intros [|k] H; cbn in *; auto; try lia. apply IH. lia. Qed.

(** ** The shape of the dual variables *)
Section L.
Variable g : gmv Qc.
Let n := length (v_labels g).
Let nf := length (v_factors g).
Definition dshape : list (list nat) :=
  map (fun fc : list nat * (list nat -> Qc) => if 2 <=? length (fst fc) then at_vars (v_labels g) (fst fc) else []) (v_factors g).
Definition shaped (d : duals) : Prop := map (map (@length Qc)) d = dshape.
Definition dv (d : duals) (f k l : nat) : Qc := nth l (nth k (nth f d []) []) 0%Qc.
Definition vars_of (f : nat) : list nat := match nth_error (v_factors g) f with Some fc => fst fc | None => [] end.
Definition fun_of (f : nat) : list nat -> Qc := match nth_error (v_factors g) f with Some fc => snd fc | None => fun _ => 0%Qc end.

Hypothesis W : wf_gmv g.

Lemma rd_factor : forall f, f < nf -> rd (v_factors g) f = Ret (vars_of f, fun_of f).
Proof.
  intros f H. unfold rd, vars_of, fun_of. destruct (nth_error (v_factors g) f) as [[vis fn]|] eqn:E; auto. apply nth_error_None in E. unfold nf in H. lia.
Qed.
Lemma vars_ok : forall f, StronglySorted lt (vars_of f) /\ Forall (fun v => v < n) (vars_of f).
Proof.
  intros f. unfold vars_of. destruct (nth_error (v_factors g) f) as [fc|] eqn:E; [|split; constructor]. exact (wf_nth Qc g f fc W E).
Qed.
Lemma vars_NoDup : forall f, NoDup (vars_of f).
Proof. intros f. apply IndexingProofs.sorted_NoDup. apply vars_ok. Qed.
Lemma vars_nth : forall f k, k < length (vars_of f) -> nth k (vars_of f) 0 < n.
Proof. intros f k H. destruct (vars_ok f) as [_ F]. rewrite Forall_forall in F. apply F. apply nth_In. auto. Qed.

Lemma init_shaped : exists d, lpr_init g = Ret d /\ shaped d /\ forall f k l, dv d f k l = 0%Qc.
Proof.
  unfold lpr_init, shaped, dshape. destruct W as [F _]. fold n in F.
  assert (R : forall vis, Forall (fun v => v < n) vis ->
    mapM (fun v => k <- rd (v_labels g) v ;; Ret (repeat 0%Qc k)) vis = Ret (map (repeat 0%Qc) (at_vars (v_labels g) vis))).
  { intros vis FV. induction FV as [|v vis Hv FV IH]; auto. cbn [mapM at_vars map]. rewrite (rd_nth _ (v_labels g) v 0 Hv). cbn [bind]. rewrite IH. auto. }
  exists (map (fun fc : list nat * (list nat -> Qc) => if 2 <=? length (fst fc) then map (repeat 0%Qc) (at_vars (v_labels g) (fst fc)) else []) (v_factors g)).
  split; [|split].
  - induction F as [|fc fcs [_ Hf] F IH]; auto. cbn [mapM map]. destruct (2 <=? length (fst fc)); [rewrite (R _ Hf)|]; cbn [bind]; rewrite IH; auto.
  - rewrite map_map. apply map_ext. intros fc. destruct (2 <=? length (fst fc)); auto. rewrite map_map. rewrite <- (map_id (at_vars _ _)) at 2. apply map_ext. intros a. apply repeat_length.
  - intros f k l. unfold dv.
    assert (Z : forall u, (exists m, u = repeat 0%Qc m) -> nth l u 0%Qc = 0%Qc). { intros u [m ->]. apply nth_repeat. }
    apply Z. clear Z. destruct (nth_in_or_default f (map (fun fc : list nat * (list nat -> Qc) => if 2 <=? length (fst fc) then map (repeat 0%Qc) (at_vars (v_labels g) (fst fc)) else []) (v_factors g)) []) as [I|E].
    + apply in_map_iff in I. destruct I as (fc & <- & _). destruct (2 <=? length (fst fc)).
      * destruct (nth_in_or_default k (map (repeat 0%Qc) (at_vars (v_labels g) (fst fc))) []) as [I|E]; [|exists 0; auto].
        apply in_map_iff in I. destruct I as (m & <- & _). eauto.
      * exists 0. destruct k; auto.
    + rewrite E. exists 0. destruct k; auto.
Qed.

Lemma shaped_len : forall d, shaped d -> length d = nf.
Proof. intros d H. apply (f_equal (@length (list nat))) in H. rewrite map_length in H. unfold dshape in H. rewrite map_length in H. auto. Qed.
Lemma shaped_row : forall d f, shaped d -> map (@length Qc) (nth f d []) = if 2 <=? length (vars_of f) then at_vars (v_labels g) (vars_of f) else [].
Proof.
  intros d f H. change (@nil (list Qc)) with (@nil (list Qc)). rewrite <- (map_nth (map (@length Qc)) d [] f). cbn [map]. unfold shaped in H. rewrite H. unfold dshape, vars_of.
  destruct (nth_error (v_factors g) f) as [fc|] eqn:E.
  - apply nth_error_nth. rewrite nth_error_map, E. auto.
  - apply nth_overflow. rewrite map_length. apply nth_error_None. auto.
Qed.
Definition in_dual (f k l : nat) : Prop := 2 <= length (vars_of f) /\ k < length (vars_of f) /\ l < nth (nth k (vars_of f) 0) (v_labels g) 0.
Lemma vars_lt : forall f, 0 < length (vars_of f) -> f < nf.
Proof. intros f H. unfold vars_of in H. destruct (nth_error (v_factors g) f) eqn:E; cbn in H; [|lia]. unfold nf. apply nth_error_Some. congruence. Qed.
Lemma shaped_rows : forall d f, shaped d -> 2 <= length (vars_of f) -> length (nth f d []) = length (vars_of f).
Proof.
  intros d f H L. pose proof (shaped_row d f H) as E. destruct (Nat.leb_spec 2 (length (vars_of f))); [|lia].
  apply (f_equal (@length nat)) in E. unfold at_vars in E. rewrite !map_length in E. auto.
Qed.
Lemma shaped_col : forall d f k, shaped d -> 2 <= length (vars_of f) -> k < length (vars_of f) ->
  length (nth k (nth f d []) []) = nth (nth k (vars_of f) 0) (v_labels g) 0.
Proof.
  intros d f k H L K. pose proof (shaped_row d f H) as E. destruct (Nat.leb_spec 2 (length (vars_of f))); [|lia].
  apply (f_equal (fun l => nth k l 0)) in E. change 0 with (@length Qc []) in E at 1. rewrite map_nth in E. rewrite E.
  unfold at_vars. rewrite (nth_indep _ 0 (nth 0 (v_labels g) 0)) by (rewrite map_length; auto). rewrite (map_nth (fun v => nth v (v_labels g) 0)). auto.
Qed.
Lemma rd3_ok : forall d f k l, shaped d -> in_dual f k l -> rd3 d f k l = Ret (dv d f k l).
Proof.
  intros d f k l H (L & K & B). unfold rd3, dv. rewrite (rd_nth _ d f []) by (rewrite (shaped_len d H); apply vars_lt; lia). cbn [bind].
  rewrite (rd_nth _ (nth f d []) k []) by (rewrite shaped_rows; auto). cbn [bind]. apply rd_nth. rewrite shaped_col; auto.
Qed.
Definition put (d : duals) (f k l : nat) (x : Qc) : duals := upd d f (upd (nth f d []) k (upd (nth k (nth f d []) []) l x)).
Lemma wr3_ok : forall d f k l x, shaped d -> in_dual f k l -> wr3 d f k l x = Ret (put d f k l x).
Proof.
  intros d f k l x H (L & K & B). unfold wr3, put. rewrite (rd_nth _ d f []) by (rewrite (shaped_len d H); apply vars_lt; lia). cbn [bind].
  rewrite (rd_nth _ (nth f d []) k []) by (rewrite shaped_rows; auto). cbn [bind]. rewrite wr_Ret by (rewrite shaped_col; auto). cbn [bind].
  rewrite wr_Ret by (rewrite shaped_rows; auto). cbn [bind]. apply wr_Ret. rewrite (shaped_len d H). apply vars_lt. lia.
Qed.
Lemma map_upd : forall {A B} (h : A -> B) (l : list A) i a, map h (upd l i a) = upd (map h l) i (h a).
Proof. intros A B h l. induction l as [|b l IH]; intros [|i] a; cbn; auto. rewrite IH. auto. Qed.
Lemma upd_id : forall {A} (l : list A) i d, i < length l -> upd l i (nth i l d) = l.
Proof. intros A l i d H. apply Base.upd_same. apply nth_error_nth'. auto. Qed.
Lemma put_shaped : forall d f k l x, shaped d -> in_dual f k l -> shaped (put d f k l x).
Proof.
  intros d f k l x H (L & K & B). unfold shaped, put in *. rewrite map_upd, map_upd, length_upd. rewrite <- H.
  assert (E : upd (map (@length Qc) (nth f d [])) k (length (nth k (nth f d []) [])) = map (@length Qc) (nth f d [])).
  { rewrite <- (map_nth (@length Qc)). apply upd_id. rewrite map_length, shaped_rows; auto. }
  rewrite E. rewrite <- (map_nth (map (@length Qc)) d [] f). apply upd_id. rewrite map_length, (shaped_len d H). apply vars_lt. lia.
Qed.
Lemma put_dv : forall d f k l x f' k' l', shaped d -> in_dual f k l ->
  dv (put d f k l x) f' k' l' = if (f' =? f) && (k' =? k) && (l' =? l) then x else dv d f' k' l'.
Proof.
  intros d f k l x f' k' l' H (L & K & B). unfold dv, put.
  destruct (Nat.eqb_spec f' f) as [->|NE]; cbn [andb]; [|rewrite nth_upd_neq; auto].
  rewrite nth_upd_eq by (rewrite (shaped_len d H); apply vars_lt; lia).
  destruct (Nat.eqb_spec k' k) as [->|NE]; cbn [andb]; [|rewrite nth_upd_neq; auto].
  rewrite nth_upd_eq by (rewrite shaped_rows; auto).
  destruct (Nat.eqb_spec l' l) as [->|NE]; [|rewrite nth_upd_neq; auto].
  rewrite nth_upd_eq; auto. rewrite shaped_col; auto.
Qed.
Lemma wr3_in : forall d f k l x d', shaped d -> wr3 d f k l x = Ret d' -> in_dual f k l.
Proof.
  intros d f k l x d' H E. unfold wr3 in E. apply bind_inv in E. destruct E as (r & E1 & E). apply bind_inv in E. destruct E as (u & E2 & E). apply bind_inv in E. destruct E as (u' & E3 & E).
  apply rd_inv in E1, E2. apply wr_inv in E3. destruct E3 as [E3 _].
  assert (Er : nth f d [] = r) by (apply nth_error_nth; auto). assert (Eu : nth k r [] = u) by (apply nth_error_nth; auto).
  pose proof (shaped_row d f H) as R. rewrite Er in R. destruct (Nat.leb_spec 2 (length (vars_of f))) as [L|L].
  - assert (LR : length r = length (vars_of f)) by (rewrite <- Er; apply shaped_rows; auto).
    assert (K : k < length r) by (apply nth_error_Some; congruence). rewrite LR in K. split; [auto|split; auto].
    rewrite <- (shaped_col d f k H L K). rewrite Er, Eu. auto.
  - apply map_eq_nil in R. subst. rewrite R in E2. destruct k; discriminate.
Qed.

(** ** Values *)
Lemma adj_In : forall f v, In f (v_adj Qc g v) <-> f < nf /\ mem v (vars_of f) = true.
Proof.
  intros f v. unfold v_adj, vars_of. rewrite filter_In, in_seq. unfold nf, mem. destruct (nth_error (v_factors g) f) as [[vis fn]|] eqn:E; cbn [fst].
  - split; intros [A B]; split; auto; lia.
  - split; intros [A B]; discriminate.
Qed.
Lemma adj_sum : forall v h, sum_over (v_adj Qc g v) h = sum_over (seq 0 nf) (fun f => if mem v (vars_of f) then h f else 0%Qc).
Proof.
  intros v h. unfold v_adj. rewrite sum_filter. apply sum_ext. intros f _. unfold vars_of, mem. destruct (nth_error (v_factors g) f) as [[vis fn]|]; auto.
Qed.
Lemma find_pos_ok : forall vis v, In v vis -> find_pos vis v < length vis /\ nth (find_pos vis v) vis 0 = v.
Proof.
  induction vis as [|u vis IH]; intros v I; [destruct I|]. destruct I as [->|I]; cbn [find_pos length].
  - rewrite Nat.eqb_refl. split; [lia|auto].
  - destruct (Nat.eqb_spec u v) as [->|NE]; [split; [lia|auto]|]. destruct (IH v I). split; [lia|auto].
Qed.
Lemma find_pos_nth : forall vis k, NoDup vis -> k < length vis -> find_pos vis (nth k vis 0) = k.
Proof.
  intros vis k ND H. destruct (find_pos_ok vis (nth k vis 0)) as [A B]; [apply nth_In; auto|]. rewrite NoDup_nth in ND. apply (ND _ _ A H B).
Qed.
Lemma last_pos : forall vis v, NoDup vis -> In v vis ->
  fold_left (fun o k => match nth_error vis k with Some u => if u =? v then Some k else o | None => o end) (seq 0 (length vis)) None = Some (find_pos vis v).
Proof.
  intros vis v ND I. destruct (find_pos_ok vis v I) as [A B].
  assert (G : forall m, m <= length vis -> fold_left (fun o k => match nth_error vis k with Some u => if u =? v then Some k else o | None => o end) (seq 0 m) None
    = if find_pos vis v <? m then Some (find_pos vis v) else None).
  { induction m as [|m IH]; intros H; auto. rewrite seq_S, fold_left_app, IH by lia. cbn [fold_left plus].
    rewrite (nth_error_nth' vis 0) by lia. destruct (Nat.eqb_spec (nth m vis 0) v) as [E|E].
    - assert (M : find_pos vis v = m) by (rewrite <- E; apply find_pos_nth; auto; lia). rewrite M. destruct (Nat.ltb_spec m (S m)); auto; lia.
    - assert (M : find_pos vis v <> m) by (intros <-; auto). destruct (Nat.ltb_spec (find_pos vis v) m), (Nat.ltb_spec (find_pos vis v) (S m)); auto; lia. }
  rewrite G by auto. destruct (Nat.ltb_spec (find_pos vis v) (length vis)); auto; lia.
Qed.
Lemma localId_ok : forall f v, f < nf -> 2 <= length (vars_of f) -> In v (vars_of f) -> localId g f v = Ret (find_pos (vars_of f) v).
Proof.
  intros f v H L I. unfold localId. rewrite rd_factor by auto. cbn [bind fst]. destruct (Nat.leb_spec 2 (length (vars_of f))); [|lia].
  rewrite last_pos by (auto; apply vars_NoDup). auto.
Qed.
Lemma in_dual_find : forall f v l, 2 <= length (vars_of f) -> In v (vars_of f) -> l < nth v (v_labels g) 0 -> in_dual f (find_pos (vars_of f) v) l.
Proof. intros f v l L I B. destruct (find_pos_ok (vars_of f) v I) as [A E]. split; [auto|split; auto]. rewrite E. auto. Qed.

(** The value of a variable: its unary factors minus the dual variables. *)
Definition varval (d : duals) (v l : nat) : Qc :=
  sum_over (seq 0 nf) (fun f => if mem v (vars_of f) then if length (vars_of f) =? 1 then fun_of f [l] else (- dv d f (find_pos (vars_of f) v) l)%Qc else 0%Qc).
Lemma getVariableValue_ok : forall d v l, shaped d -> l < nth v (v_labels g) 0 -> getVariableValue g d v l = Ret (varval d v l).
Proof.
  intros d v l H B. unfold getVariableValue, varval. rewrite <- adj_sum.
  rewrite (foldM_sum _ (fun f => if length (vars_of f) =? 1 then fun_of f [l] else (- dv d f (find_pos (vars_of f) v) l)%Qc)).
  - f_equal. ring.
  - intros f s I. apply adj_In in I. destruct I as [F M]. apply mem_In in M. rewrite rd_factor by auto. cbn [bind fst snd].
    destruct (Nat.eqb_spec (length (vars_of f)) 1) as [E|E]; auto.
    assert (L : 2 <= length (vars_of f)) by (destruct (vars_of f) as [|? [|? ?]]; cbn in *; [contradiction|congruence|lia]).
    rewrite localId_ok by auto. cbn [bind]. rewrite rd3_ok by (auto; apply in_dual_find; auto). cbn [bind]. auto.
Qed.
Definition highval (d : duals) (f : nat) (c : list nat) : Qc :=
  (fun_of f c + sum_over (seq 0 (length (vars_of f))) (fun k => dv d f k (nth k c 0%nat)))%Qc.
Lemma getFactorValue_high : forall d f c, shaped d -> 2 <= length (vars_of f) -> in_shape (at_vars (v_labels g) (vars_of f)) c -> getFactorValue g d f c = Ret (highval d f c).
Proof.
  intros d f c H L S. unfold getFactorValue. rewrite rd_factor by (apply vars_lt; lia). cbn [bind fst snd]. destruct (Nat.ltb_spec 1 (length (vars_of f))); [|lia].
  assert (LC : length c = length (vars_of f)). { rewrite (in_shape_length _ _ S). unfold at_vars. apply map_length. }
  apply foldM_sum. intros k s I. apply in_seq in I. rewrite (rd_nth _ c k 0) by lia. cbn [bind]. rewrite rd3_ok; auto. split; [auto|split; [lia|]].
  pose proof (in_shape_at _ _ k S) as N. unfold at_vars in N. rewrite map_length in N. rewrite (nth_indep (map _ _) 0 (nth 0 (v_labels g) 0)) in N by (rewrite map_length; lia).
  rewrite (map_nth (fun v => nth v (v_labels g) 0)) in N. apply N. lia.
Qed.
Definition repaval (d : duals) (f : nat) (c : list nat) : Qc := if length (vars_of f) =? 1 then varval d (nth 0 (vars_of f) 0) (nth 0 c 0) else highval d f c.
Lemma view_ok : forall d f c, shaped d -> vars_of f <> [] -> in_shape (at_vars (v_labels g) (vars_of f)) c -> repa_view g d f c = Ret (repaval d f c).
Proof.
  intros d f c H NE S. assert (F : f < nf) by (apply vars_lt; destruct (vars_of f); [contradiction|cbn; lia]).
  unfold repa_view, repaval. rewrite rd_factor by auto. cbn [bind fst snd]. destruct (Nat.eqb_spec (length (vars_of f)) 1) as [E|E].
  - rewrite E. destruct (vars_of f) as [|v [|? ?]] eqn:EV; try discriminate. cbn [nth rd nth_error bind]. cbn [at_vars map] in S. inversion S; subst. cbn [rd nth_error bind nth].
    apply getVariableValue_ok; auto.
  - destruct (length (vars_of f)) as [|[|m]] eqn:EL; [destruct (vars_of f); [contradiction|discriminate]|congruence|].
    apply getFactorValue_high; auto. lia.
Qed.

Lemma at_vars_shape : forall x f, labeling g x -> in_shape (at_vars (v_labels g) (vars_of f)) (at_vars x (vars_of f)).
Proof.
  intros x f LX. destruct (vars_ok f) as [_ F]. unfold at_vars, in_shape. induction F as [|v vis Hv F IH]; cbn [map]; constructor; auto.
  apply (in_shape_at _ _ v LX). auto.
Qed.
Hypothesis NC : no_constants g.
Lemma vars_some : forall f, f < nf -> vars_of f <> [].
Proof.
  intros f H. unfold vars_of. destruct (nth_error (v_factors g) f) as [fc|] eqn:E; [|apply nth_error_None in E; unfold nf in H; lia].
  unfold no_constants in NC. rewrite Forall_forall in NC. apply NC. eapply nth_error_In; eauto.
Qed.
Lemma evaluate_sum : forall d x, shaped d -> labeling g x ->
  repa_evaluate (getReparametrizedModel g d) x = Ret (sum_over (seq 0 nf) (fun f => repaval d f (at_vars x (vars_of f)))).
Proof.
  intros d x H LX. unfold repa_evaluate, getReparametrizedModel.
  assert (G : forall l s, (forall f, In f l -> f < nf) ->
    foldM (fun acc (fc : list nat * (list nat -> outcome Qc)) => c <- mapM (rd x) (fst fc) ;; v <- snd fc c ;; Ret (v + acc)%Qc)
      (map (fun f => (match nth_error (v_factors g) f with Some fc => fst fc | None => [] end, repa_view g d f)) l) s
    = Ret (s + sum_over l (fun f => repaval d f (at_vars x (vars_of f))))%Qc).
  { induction l as [|f l IH]; intros s HL; cbn [map foldM].
    - f_equal. cbn. ring.
    - cbn [fst snd]. fold (vars_of f). destruct (vars_ok f) as [_ F]. rewrite mapM_rd by (rewrite (labeling_length Qc g x LX); auto). cbn [bind].
      rewrite view_ok; [|auto|apply vars_some; apply HL; left; auto|apply at_vars_shape; auto]. cbn [bind]. rewrite IH by (intros; apply HL; right; auto). rewrite sum_cons. f_equal. ring. }
  rewrite G; [f_equal; unfold lnf, nf; ring|]. intros f I. apply in_seq in I. unfold lnf in I. unfold nf. lia.
Qed.
Lemma total_sum : forall x, total AdderQ g x = sum_over (seq 0 nf) (fun f => fun_of f (at_vars x (vars_of f))).
Proof.
  intros x. unfold total, nf, fun_of, vars_of.
  assert (G : forall fs s, fold_left (fun acc fc => o_op AdderQ (snd fc (at_vars x (fst fc))) acc) fs s
    = (s + sum_over (seq 0 (length fs)) (fun f => match nth_error fs f with Some fc => snd fc | None => fun _ => 0%Qc end (at_vars x match nth_error fs f with Some fc => fst fc | None => [] end)))%Qc).
  { induction fs as [|fc fs IH]; intros s; cbn [fold_left length seq]; [cbn; ring|]. rewrite IH, sum_cons. cbn [nth_error]. rewrite <- seq_shift, sum_map. cbn [nth_error]. cbn [o_op AdderQ]. ring. }
  rewrite G. cbn [o_neutral AdderQ]. ring.
Qed.
Definition c_un (v : nat) : Qc := sum_over (seq 0 nf) (fun f => if (length (vars_of f) =? 1) && mem v (vars_of f) then 1%Qc else 0%Qc).
Lemma Qc_of_nat_S : forall k, Qc_of_nat (S k) = (1 + Qc_of_nat k)%Qc.
Proof.
  intros k. unfold Qc_of_nat. apply Qc_is_canon. unfold Qcplus, Q2Qc. cbn [this]. rewrite !Qred_correct. rewrite Nat2Z.inj_succ. unfold Z.succ. rewrite inject_Z_plus.
  cbn [this]. rewrite Qplus_comm. reflexivity.
Qed.
Lemma c_un_ok : forall v, c_un v = Qc_of_nat (unaries g v).
Proof.
  intros v. unfold c_un, unaries, nf, vars_of. induction (v_factors g) as [|fc fs IH]; [apply Qc_is_canon; reflexivity|].
  cbn [length seq filter]. rewrite sum_cons. cbn [nth_error]. rewrite <- seq_shift, sum_map. cbn [nth_error]. rewrite IH.
  destruct (fst fc) as [|u [|? ?]]; cbn [length Nat.eqb andb mem existsb]; try ring.
  rewrite (Nat.eqb_sym u v). rewrite orb_false_r. destruct (v =? u); cbn [length]; [rewrite Qc_of_nat_S|]; ring.
Qed.

(** The dual variables of a factor, summed over its variables or over all variables *)
Lemma dual_sum : forall d f x, sum_over (seq 0 (length (vars_of f))) (fun k => dv d f k (nth k (at_vars x (vars_of f)) 0))
  = sum_over (seq 0 n) (fun v => if mem v (vars_of f) then dv d f (find_pos (vars_of f) v) (nth v x 0%nat) else 0%Qc).
Proof.
  intros d f x. destruct (vars_ok f) as [_ F]. rewrite <- (sum_mem n (vars_of f) (fun v => dv d f (find_pos (vars_of f) v) (nth v x 0%nat)) (vars_NoDup f) F).
  transitivity (sum_over (map (fun k => nth k (vars_of f) 0) (seq 0 (length (vars_of f)))) (fun v => dv d f (find_pos (vars_of f) v) (nth v x 0%nat))).
  - rewrite sum_map. apply sum_ext. intros k I. apply in_seq in I. rewrite find_pos_nth by (try apply vars_NoDup; lia). f_equal. unfold at_vars.
    rewrite (nth_indep _ 0 (nth 0 x 0)) by (rewrite map_length; lia). apply (map_nth (fun v => nth v x 0)).
  - f_equal. apply FuseMoves.map_nth_seq.
Qed.

Lemma value_formula : forall d x, shaped d -> labeling g x ->
  sum_over (seq 0 nf) (fun f => repaval d f (at_vars x (vars_of f)))
  = (total AdderQ g x + sum_over (seq 0 n) (fun v => (Qc_of_nat (unaries g v) - 1) * varval d v (nth v x 0%nat)))%Qc.
Proof.
  intros d x H LX. set (e := fun f v => dv d f (find_pos (vars_of f) v) (nth v x 0%nat)).
  set (un := fun f => length (vars_of f) =? 1).
  assert (E1 : sum_over (seq 0 nf) (fun f => repaval d f (at_vars x (vars_of f)))
    = sum_over (seq 0 nf) (fun f => (if un f then 0 else fun_of f (at_vars x (vars_of f))) + sum_over (seq 0 n) (fun v => if mem v (vars_of f) then if un f then varval d v (nth v x 0%nat) else e f v else 0))%Qc).
  { apply sum_ext. intros f I. unfold repaval. fold (un f). destruct (un f) eqn:U.
    - destruct (vars_ok f) as [_ F]. rewrite <- (sum_mem n (vars_of f) (fun v => varval d v (nth v x 0%nat)) (vars_NoDup f) F).
      apply Nat.eqb_eq in U. destruct (vars_of f) as [|v [|? ?]]; try discriminate. cbn [at_vars map nth]. rewrite sum_cons. cbn. ring.
    - unfold highval. rewrite dual_sum. auto. }
  assert (E2 : total AdderQ g x = sum_over (seq 0 nf) (fun f => (if un f then 0 else fun_of f (at_vars x (vars_of f))) + sum_over (seq 0 n) (fun v => if mem v (vars_of f) then if un f then fun_of f [nth v x 0%nat] else 0 else 0))%Qc).
  { rewrite total_sum. apply sum_ext. intros f I. destruct (un f) eqn:U.
    - destruct (vars_ok f) as [_ F]. rewrite <- (sum_mem n (vars_of f) (fun v => fun_of f [nth v x 0%nat]) (vars_NoDup f) F).
      apply Nat.eqb_eq in U. destruct (vars_of f) as [|v [|? ?]]; try discriminate. cbn [at_vars map nth]. rewrite sum_cons. cbn. ring.
    - rewrite (sum_zero (seq 0 n)); [ring|]. intros v _. destruct (mem v (vars_of f)); auto. }
  assert (E3 : sum_over (seq 0 n) (fun v => (Qc_of_nat (unaries g v) - 1) * varval d v (nth v x 0%nat))%Qc
    = sum_over (seq 0 nf) (fun f => sum_over (seq 0 n) (fun v => if mem v (vars_of f) then if un f then varval d v (nth v x 0%nat) - fun_of f [nth v x 0%nat] else e f v else 0))%Qc).
  { rewrite sum_swap. apply sum_ext. intros v _. rewrite <- c_un_ok. unfold c_un. fold un.
    transitivity (sum_over (seq 0 nf) (fun f => (if un f && mem v (vars_of f) then 1 else 0) * varval d v (nth v x 0%nat)) - varval d v (nth v x 0%nat))%Qc; [rewrite sum_mul; unfold un; ring|].
    unfold varval at 2. fold un. unfold Qcminus. rewrite <- sum_opp, <- sum_add. apply sum_ext. intros f _. fold (un f). fold (e f v).
    destruct (un f), (mem v (vars_of f)); cbn [andb]; try ring. }
  rewrite E1, E2, E3, <- sum_add. apply sum_ext. intros f _. rewrite <- Qcplus_assoc, <- sum_add. f_equal. apply sum_ext. intros v _.
  destruct (mem v (vars_of f)), (un f); ring.
Qed.
End L.
