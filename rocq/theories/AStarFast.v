(** Proofs about A* search: the fast heuristic. *)
From Verif Require Import Base Values GmView ShapeSpec ShapeProofs GmViewSpec AStarModel AStarSpec AStarSearch.
From Coq Require Import Permutation Sorted.
Open Scope nat_scope.

Section Big.
Variable T : Type.
Variable ok : T -> Prop.
Variable OP : oper T.
Variable ACC : accum T.
Hypothesis SL : search_laws ok OP ACC.
Notation op := (o_op OP).
Notation one := (o_neutral OP).
Notation le := (le T ACC).
Definition bigo {A : Type} (l : list A) (f : A -> T) : T := fold_right (fun k acc => op (f k) acc) one l.
Lemma bigo_ok : forall (A : Type) (l : list A) f, (forall k, In k l -> ok (f k)) -> ok (bigo l f).
Proof. induction l as [|a l IH]; intros f H; cbn; [apply (sl_neutral _ _ _ SL)|]. apply (sl_op _ _ _ SL); [apply H; left; auto|]. apply IH. intros k Hk. apply H. right; auto. Qed.
Lemma bigo_ext : forall (A : Type) (l : list A) f h, (forall k, In k l -> f k = h k) -> bigo l f = bigo l h.
Proof. induction l as [|a l IH]; intros f h H; cbn; auto. rewrite (H a) by (left; auto). f_equal. apply IH. intros k Hk. apply H. right; auto. Qed.
Lemma unit_r : forall a, ok a -> op a one = a.
Proof. intros a H. rewrite (sl_comm _ _ _ SL) by (auto; apply (sl_neutral _ _ _ SL)). apply (sl_unit _ _ _ SL); auto. Qed.
Lemma op_swap : forall a b c, ok a -> ok b -> ok c -> op a (op b c) = op b (op a c).
Proof. intros a b c Ka Kb Kc. rewrite !(sl_assoc _ _ _ SL) by auto. rewrite (sl_comm _ _ _ SL a b) by auto. auto. Qed.
Lemma bigo_app : forall (A : Type) (l1 l2 : list A) f, (forall k, In k (l1 ++ l2) -> ok (f k)) -> bigo (l1 ++ l2) f = op (bigo l1 f) (bigo l2 f).
Proof.
  induction l1 as [|a l IH]; intros l2 f H.
  - cbn. rewrite (sl_unit _ _ _ SL); auto. apply bigo_ok. auto.
  - rewrite <- app_comm_cons. cbn [bigo fold_right]. fold (bigo (l ++ l2) f). fold (bigo l f). rewrite IH by (intros; apply H; right; auto). apply (sl_assoc _ _ _ SL).
    + apply H. left; auto.
    + apply bigo_ok. intros k Hk. apply H. right. apply in_or_app; auto.
    + apply bigo_ok. intros k Hk. apply H. right. apply in_or_app; auto.
Qed.
Lemma bigo_perm : forall (A : Type) (l1 l2 : list A) f, Permutation l1 l2 -> (forall k, In k l1 -> ok (f k)) -> bigo l1 f = bigo l2 f.
Proof.
  intros A l1 l2 f H. induction H; intros K; cbn; auto.
  - f_equal. apply IHPermutation. intros k Hk. apply K. right; auto.
  - apply op_swap; try (apply K; cbn; auto). apply bigo_ok. intros k Hk. apply K. cbn; auto.
  - rewrite IHPermutation1 by auto. apply IHPermutation2. intros k Hk. apply K. eapply Permutation_in; [apply Permutation_sym|]; eauto.
Qed.
(** One summand grows. *)
Lemma bigo_at : forall n v f f' x, v < n -> (forall i, i < n -> ok (f i)) -> ok x -> (forall i, i < n -> i <> v -> f' i = f i) -> f' v = op x (f v) ->
  bigo (seq 0 n) f' = op x (bigo (seq 0 n) f).
Proof.
  intros n v f f' x Hv K Kx E Ev.
  assert (PR : Permutation (seq 0 n) (v :: filter (fun i => negb (i =? v)) (seq 0 n))).
  { apply NoDup_Permutation; [apply seq_NoDup| |].
    - constructor; [rewrite filter_In, Nat.eqb_refl; intros [_ X]; discriminate|]. apply NoDup_filter, seq_NoDup.
    - intros i. cbn. rewrite filter_In, in_seq, negb_true_iff, Nat.eqb_neq. destruct (Nat.eq_dec i v); [subst; split; [auto|intros _; lia]|]. split; [intros; right; split; auto|intros [?|[? ?]]; [congruence|auto]]. }
  assert (K' : forall i, i < n -> ok (f' i)).
  { intros i Hi. destruct (Nat.eq_dec i v) as [->|Ne]; [rewrite Ev; apply (sl_op _ _ _ SL); auto|rewrite E; auto]. }
  rewrite (bigo_perm _ _ _ f' PR) by (intros i Hi; apply in_seq in Hi; apply K'; lia).
  rewrite (bigo_perm _ _ _ f PR) by (intros i Hi; apply in_seq in Hi; apply K; lia). cbn [bigo fold_right].
  fold (bigo (filter (fun i => negb (i =? v)) (seq 0 n)) f'). fold (bigo (filter (fun i => negb (i =? v)) (seq 0 n)) f).
  rewrite (bigo_ext _ _ f' f), Ev.
  - symmetry. apply (sl_assoc _ _ _ SL); auto. apply bigo_ok. intros i Hi. apply filter_In in Hi as [Hi _]. apply in_seq in Hi. apply K. lia.
  - intros i Hi. apply filter_In in Hi as [Hi Hn]. apply in_seq in Hi. apply negb_true_iff, Nat.eqb_neq in Hn. apply E; auto. lia.
Qed.
Lemma le_op : forall a b c, ok a -> ok b -> ok c -> le a b -> le (op c a) (op c b).
Proof. unfold AStarSearch.le. intros a b c Ka Kb Kc H. apply (sl_mono _ _ _ SL); auto. Qed.
Lemma le_op2 : forall a b c d, ok a -> ok b -> ok c -> ok d -> le a b -> le c d -> le (op a c) (op b d).
Proof.
  intros a b c d Ka Kb Kc Kd H1 H2. apply (le_trans T ok OP ACC SL _ (op a d)); try (apply (sl_op _ _ _ SL); auto).
  - apply le_op; auto.
  - rewrite (sl_comm _ _ _ SL a d), (sl_comm _ _ _ SL b d) by auto. apply le_op; auto.
Qed.
Lemma bigo_le : forall (A : Type) (l : list A) f h, (forall k, In k l -> ok (f k) /\ ok (h k) /\ le (f k) (h k)) -> le (bigo l f) (bigo l h).
Proof.
  induction l as [|a l IH]; intros f h H; cbn.
  - apply (le_refl T ok OP ACC SL). apply (sl_neutral _ _ _ SL).
  - apply le_op2; try (apply H; left; auto).
    + apply bigo_ok. intros k Hk. apply H. right; auto.
    + apply bigo_ok. intros k Hk. apply H. right; auto.
    + apply IH. intros k Hk. apply H. right; auto.
Qed.
(** The best of some values. *)
Definition best (l : list T) : T := fold_left (fun m y => a_op ACC y m) l (a_neutral ACC).
Lemma best_from : forall l m, ok m -> Forall ok l -> let b := fold_left (fun m y => a_op ACC y m) l m in
  ok b /\ le b m /\ Forall (fun x => le b x) l /\ (b = m \/ In b l).
Proof.
  induction l as [|a l IH]; intros m Km Kl; cbn.
  - split; auto. split; auto. apply (le_refl T ok OP ACC SL); auto.
  - inversion Kl as [|? ? Ka Kl']; subst.
    assert (X : ok (a_op ACC a m) /\ le (a_op ACC a m) m /\ le (a_op ACC a m) a /\ (a_op ACC a m = a \/ a_op ACC a m = m)).
    { rewrite (sl_select _ _ _ SL) by auto. unfold AStarSearch.le. destruct (a_bop ACC a m) eqn:E.
      - split; auto. split; [apply (sl_asym _ _ _ SL); auto|]. split; auto. apply (sl_irrefl _ _ _ SL); auto.
      - split; auto. split; [apply (sl_irrefl _ _ _ SL); auto|]. split; auto. }
    destruct X as (K0 & L1 & L2 & C). destruct (IH (a_op ACC a m) K0 Kl') as (B1 & B2 & B3 & B4). split; auto.
    split; [eapply (le_trans T ok OP ACC SL); [| | |exact B2|exact L1]; auto|].
    split; [constructor; auto; eapply (le_trans T ok OP ACC SL); [| | |exact B2|exact L2]; auto|].
    destruct B4 as [B4|B4]; [|auto]. rewrite B4. destruct C as [C|C]; rewrite C; auto.
Qed.
Lemma best_spec : forall l, l <> [] -> Forall ok l -> ok (best l) /\ Forall (fun x => le (best l) x) l /\ In (best l) l.
Proof.
  intros [|a l] Hn Kl; [congruence|]. inversion Kl as [|? ? Ka Kl']; subst. unfold best. cbn [fold_left]. rewrite (sl_first _ _ _ SL) by auto.
  destruct (best_from l a Ka Kl') as (B1 & B2 & B3 & B4). split; auto. split; [constructor; auto|]. destruct B4 as [B4|B4]; [left; auto|right; auto].
Qed.
Lemma best_foldM : forall h m, foldM (fun b j => y <- h j ;; Ret (a_op ACC y b)) (seq 0 m) (a_neutral ACC) =
  (l <- mapM h (seq 0 m) ;; Ret (best l)).
Proof.
  intros h m. unfold best. generalize (a_neutral ACC). generalize (seq 0 m). induction l as [|a l IH]; intros b; cbn; auto.
  destruct (h a); cbn; auto. rewrite IH. destruct (mapM h l); auto.
Qed.
Definition rv (zero : T) (row : list T) (j : nat) : T := nth j row (nth 0 row zero).
Lemma rv_in : forall zero row j, row <> [] -> In (rv zero row j) row.
Proof. intros zero row j H. unfold rv. destruct (nth_in_or_default j row (nth 0 row zero)) as [X|X]; auto. rewrite X. destruct row; [congruence|left; auto]. Qed.
End Big.

Lemma upd_mid : forall (A : Type) (l t : list A) a x, upd (l ++ a :: t) (length l) x = l ++ x :: t.
Proof. induction l as [|b l IH]; intros t a x; cbn; auto. rewrite IH. auto. Qed.

Lemma label_none : forall l v init, ~ In v (map fst l) -> fold_left (fun (l : option nat) (p : nat * nat) => if fst p =? v then Some (snd p) else l) l init = init.
Proof.
  induction l as [|[a b] l IH]; intros v init H; cbn in *; auto. destruct (Nat.eqb_spec a v); [exfalso; auto|]. apply IH. auto.
Qed.
Lemma label_some : forall l v a init, NoDup (map fst l) -> In (v, a) l -> fold_left (fun (l : option nat) (p : nat * nat) => if fst p =? v then Some (snd p) else l) l init = Some a.
Proof.
  induction l as [|[c b] l IH]; intros v a init ND H; cbn in *; [tauto|]. inversion ND; subst. destruct H as [H|H].
  - injection H as -> ->. rewrite Nat.eqb_refl. apply label_none; auto.
  - apply IH; auto.
Qed.
Lemma map_fst_combine : forall (A B : Type) (l : list A) (m : list B), map fst (combine l m) = firstn (length m) l.
Proof. induction l as [|a l IH]; intros [|b m]; cbn; auto. rewrite IH. auto. Qed.
Lemma NoDup_firstn : forall (A : Type) (l : list A) k, NoDup l -> NoDup (firstn k l).
Proof. induction l as [|a l IH]; intros [|k] H; cbn; auto; try constructor; inversion H; subst; auto. intros X. apply H2. rewrite <- (firstn_skipn k l). apply in_or_app; auto. Qed.
(** Every choice of labels for some variables is part of a labeling. *)
Lemma labeling_of : forall sh vis c, positive sh -> NoDup vis -> Forall (fun v => v < length sh) vis -> in_shape (map (fun v => nth v sh 0) vis) c ->
  exists y, in_shape sh y /\ at_vars y vis = c.
Proof.
  intros sh vis. induction vis as [|v vis IH]; intros c HP ND HV HC.
  - inversion HC; subst. exists (repeat 0 (length sh)). split; auto. apply positive_in_shape_0; auto.
  - inversion HC as [|x b c' l Hx HC']; subst. inversion ND; subst. inversion HV; subst. destruct (IH c' HP H2 H4 HC') as (y & Hy & E).
    exists (upd y v x). pose proof (in_shape_length _ _ Hy) as Ly. split.
    + apply in_shape_nths; [rewrite length_upd; auto|]. intros u Hu. destruct (Nat.eq_dec v u) as [->|Ne].
      * rewrite nth_upd_eq by lia. auto.
      * rewrite nth_upd_neq by auto. apply in_shape_lt; auto.
    + unfold at_vars in *. cbn. rewrite nth_upd_eq by lia. f_equal. rewrite <- E. apply map_ext_in. intros u Hu. apply nth_upd_neq. intros ->. auto.
Qed.
Lemma at_vars_shape : forall sh y vis, in_shape sh y -> Forall (fun v => v < length sh) vis -> in_shape (map (fun v => nth v sh 0) vis) (at_vars y vis).
Proof. intros sh y vis H HV. unfold at_vars. induction HV; cbn; constructor; auto. apply in_shape_lt; auto. Qed.
Lemma sorted_nodup : forall l, StronglySorted lt l -> NoDup l.
Proof. intros l H. induction H as [|a l H IH F]; constructor; auto. intros X. rewrite Forall_forall in F. specialize (F a X). lia. Qed.

Lemma mapM_nth : forall (A B : Type) (h : A -> outcome B) l o i a b, mapM h l = Ret o -> nth_error l i = Some a -> h a = Ret b -> nth_error o i = Some b.
Proof.
  induction l as [|c l IH]; intros o [|i] a b E Ei Eh; cbn in *; try discriminate.
  - injection Ei as ->. rewrite Eh in E. cbn in E. destruct (mapM h l); cbn in E; try discriminate. injection E as <-. auto.
  - destruct (h c); cbn in E; try discriminate. destruct (mapM h l) eqn:EM; cbn in E; try discriminate. injection E as <-. cbn. eapply IH; eauto.
Qed.

Lemma nth_map_seq : forall (A : Type) (f : nat -> A) m j d, j < m -> nth j (map f (seq 0 m)) d = f j.
Proof. intros A f m j d H. rewrite (nth_indep _ d (f 0)) by (rewrite map_length, seq_length; auto). rewrite map_nth, seq_nth by auto. auto. Qed.

Lemma upd_swap : forall (A : Type) (l : list A) a b x y, a <> b -> upd (upd l a x) b y = upd (upd l b y) a x.
Proof. induction l as [|c l IH]; intros [|a] [|b] x y H; cbn; auto; try lia. f_equal. apply IH. lia. Qed.

Section Fast.
Variable T : Type.
Variable ok : T -> Prop.
Variable OP : oper T.
Variable ACC : accum T.
Variable zero : T.
Variable g : gmv T.
Hypothesis SL : search_laws ok OP ACC.
Hypothesis WF : wf_gmv g.
Hypothesis OK : fin_gmv ok g.
Hypothesis PW : Forall (fun fc => length (fst fc) <= 2) (v_factors g).
Let n := length (v_labels g).
Let lab v := nth v (v_labels g) 0.
Notation op := (o_op OP).
Notation one := (o_neutral OP).
Notation le := (le T ACC).
Variable P : aparam T.
Variable tr : list bool.
Variable opt : list (option (nat * list T)).
Let order := p_nodeOrder P.
Hypothesis OR : Permutation order (seq 0 n).
Hypothesis TL : length tr = length (v_factors g).
Hypothesis FO : forest g (filter (fun i => nth i tr false) (seq 0 (length (v_factors g)))).
Hypothesis OE : mapM (optimize T ACC g) (v_factors g) = Ret opt.

Let fac i := nth i (v_factors g) ([], fun _ => zero).
Definition fval (y : list nat) (i : nat) : T := snd (fac i) (at_vars y (fst (fac i))).
(** The value of a factor, where factors without variables do not count. *)
Definition fval' (y : list nat) (i : nat) : T := if length (fst (fac i)) =? 0 then one else fval y i.
Let R y := bigo T OP (seq 0 (length (v_factors g))) (fval' y).

Lemma fac_in : forall i, i < length (v_factors g) -> nth_error (v_factors g) i = Some (fac i).
Proof. intros i H. apply nth_error_nth'. auto. Qed.
Lemma fac_rd : forall i, i < length (v_factors g) -> rd (v_factors g) i = Ret (fac i).
Proof. intros i H. apply rd_Ret, fac_in; auto. Qed.
Lemma fval_ok : forall y i, i < length (v_factors g) -> labeling g y -> ok (fval y i).
Proof. intros y i H HL. unfold fin_gmv in OK. rewrite Forall_forall in OK. apply (OK (fac i)); auto. eapply nth_error_In, fac_in; auto. Qed.
Lemma fval'_ok : forall y i, i < length (v_factors g) -> labeling g y -> ok (fval' y i).
Proof. intros y i H HL. unfold fval'. destruct (_ =? 0); [apply (sl_neutral _ _ _ SL)|apply fval_ok; auto]. Qed.
Lemma fac_vars : forall i, i < length (v_factors g) -> StronglySorted lt (fst (fac i)) /\ Forall (fun v => v < n) (fst (fac i)) /\ length (fst (fac i)) <= 2.
Proof.
  intros i H. pose proof (nth_error_In _ _ (fac_in i H)) as X. destruct WF as [W _]. rewrite Forall_forall in W, PW. specialize (W _ X). specialize (PW _ X). destruct W. auto.
Qed.
Lemma lab_pos' : forall v, v < n -> 0 < lab v.
Proof. intros v H. unfold lab. destruct WF as [_ W]. unfold positive in W. rewrite Forall_forall in W. apply W. apply nth_In. auto. Qed.

(** ** Energies *)
Definition EV (e : list (list T)) (y : list nat) : T := bigo T OP (seq 0 n) (fun i => rv T zero (nth i e []) (nth i y 0)).
Definition rows (e : list (list T)) : Prop := length e = n /\ forall i, i < n -> nth i e [] <> [] /\ Forall ok (nth i e []).
Lemma rv_ok : forall e i j, rows e -> i < n -> ok (rv T zero (nth i e []) j).
Proof. intros e i j [_ H] Hi. destruct (H i Hi) as [H1 H2]. rewrite Forall_forall in H2. apply H2. apply rv_in; auto. Qed.
Lemma EV_ok : forall e y, rows e -> ok (EV e y).
Proof. intros e y H. apply (bigo_ok T ok OP ACC SL). intros i Hi. apply in_seq in Hi. apply rv_ok; auto. lia. Qed.
Lemma rows_upd : forall e v row, rows e -> row <> [] -> Forall ok row -> rows (upd e v row).
Proof.
  intros e v row [H1 H2] Hn Hk. split; [rewrite length_upd; auto|]. intros i Hi. destruct (Nat.eq_dec v i) as [->|Ne].
  - rewrite nth_upd_eq by lia. auto.
  - rewrite nth_upd_neq by auto. auto.
Qed.
Lemma EV_upd : forall e v row y x, rows e -> v < n -> ok x -> rv T zero row (nth v y 0) = op x (rv T zero (nth v e []) (nth v y 0)) ->
  EV (upd e v row) y = op x (EV e y).
Proof.
  intros e v row y x H Hv Kx E. unfold EV. apply (bigo_at T ok OP ACC SL n v); auto.
  - intros i Hi. apply rv_ok; auto.
  - intros i Hi Ne. rewrite nth_upd_neq; auto.
  - rewrite nth_upd_eq; auto. destruct H as [-> _]. auto.
Qed.
Lemma shrink_ok : forall e v, rows e -> v < n -> shrink T zero e v = Ret (upd e v [nth 0 (nth v e []) zero]).
Proof.
  intros e v [H1 H2] Hv. unfold shrink. rewrite (rd_nth _ e v []) by lia. cbn [bind]. destruct (H2 v Hv) as [Hn _].
  rewrite wr_Ret by lia. destruct (nth v e []); [congruence|]. auto.
Qed.
Lemma bump_ok : forall e v j x, v < length e -> j < length (nth v e []) -> bump T OP e v j x = Ret (upd e v (upd (nth v e []) j (op x (nth j (nth v e []) zero)))).
Proof.
  intros e v j x Hv Hj. unfold bump. rewrite (rd_nth _ e v []) by lia. cbn [bind]. rewrite (rd_nth _ _ j zero) by lia. cbn [bind].
  rewrite wr_Ret by lia. cbn [bind]. apply wr_Ret. auto.
Qed.
Definition bumped (h : nat -> T) (row : list T) : list T := map (fun j => op (h j) (nth j row zero)) (seq 0 (length row)).
Lemma bump_all_ok : forall e v F h, v < length e -> v < n -> length (nth v e []) = lab v -> (forall j, j < lab v -> F j = Ret (h j)) ->
  bump_all T OP g e v F = Ret (upd e v (bumped h (nth v e []))).
Proof.
  intros e v F h Hv Hn HL HF. unfold bump_all. rewrite (rd_nth _ (v_labels g) v 0) by auto. cbn [bind]. fold (lab v).
  assert (X : forall m, m <= lab v -> foldM (fun e j => x <- F j ;; bump T OP e v j x) (seq 0 m) e =
             Ret (upd e v (map (fun j => op (h j) (nth j (nth v e []) zero)) (seq 0 m) ++ skipn m (nth v e [])))).
  { induction m as [|m IH]; intros Hm.
    - cbn. rewrite upd_same; auto. apply nth_error_nth'. auto.
    - rewrite seq_S, foldM_app, IH by lia. cbn [bind foldM Nat.add]. rewrite HF by lia. cbn [bind].
      destruct (skipn_split _ (nth v e []) m ltac:(lia)) as (w & Ew).
      set (pre := map (fun j => op (h j) (nth j (nth v e []) zero)) (seq 0 m)).
      assert (LP : length pre = m) by (unfold pre; rewrite map_length, seq_length; auto).
      rewrite bump_ok.
      + cbn [bind]. rewrite upd_upd_eq. do 2 f_equal. rewrite nth_upd_eq by auto. rewrite Ew. rewrite app_nth2 by lia. rewrite LP, Nat.sub_diag. cbn [nth].
        rewrite map_app. cbn [map]. fold pre. rewrite <- app_assoc. cbn [app].
        assert (W : w = nth m (nth v e []) zero).
        { assert (Z0 : nth_error (skipn m (nth v e [])) 0 = Some w) by (rewrite Ew; auto). rewrite nth_error_skip, Nat.add_0_r in Z0. symmetry. apply nth_error_nth; auto. }
        rewrite <- W. clearbody pre. clear - LP. subst m. apply upd_mid.
      + rewrite length_upd. auto.
      + rewrite nth_upd_eq by auto. rewrite app_length, skipn_length, LP. lia. }
  rewrite X by auto. unfold bumped. rewrite HL. rewrite <- HL at 2. rewrite skipn_all, app_nil_r. auto.
Qed.
Lemma bumped_len : forall h row, length (bumped h row) = length row.
Proof. intros. unfold bumped. rewrite map_length, seq_length. auto. Qed.
Lemma bumped_ok : forall h row, (forall j, j < length row -> ok (h j)) -> Forall ok row -> Forall ok (bumped h row).
Proof.
  intros h row Hh Hr. apply Forall_forall. intros x Hx. apply in_map_iff in Hx as (j & <- & Hj). apply in_seq in Hj. apply (sl_op _ _ _ SL); [apply Hh; lia|].
  rewrite Forall_forall in Hr. apply Hr. apply nth_In. lia.
Qed.
Lemma bumped_rv : forall h row j, j < length row -> rv T zero (bumped h row) j = op (h j) (rv T zero row j).
Proof.
  intros h row j Hj. unfold rv. rewrite (nth_indep (bumped h row) _ (op (h 0) (nth 0 row zero))) by (rewrite bumped_len; auto).
  unfold bumped. rewrite (map_nth (fun j => op (h j) (nth j row zero))). rewrite seq_nth by auto. cbn. f_equal. apply nth_indep; auto.
Qed.

(** ** Optimized factors *)
Lemma optimize_ok : forall i v w ws, i < length (v_factors g) -> fst (fac i) = v :: w :: ws -> exists t,
  nth_error opt i = Some (Some (v, t)) /\ length t = lab v /\
  forall y, labeling g y -> ok (nth (nth v y 0) t zero) /\ le (nth (nth v y 0) t zero) (fval y i).
Proof.
  intros i v w ws Hi Ev. pose proof (fac_in i Hi) as Ei. destruct WF as [W PO].
  assert (W1 : StronglySorted lt (fst (fac i)) /\ Forall (fun v => v < n) (fst (fac i))).
  { rewrite Forall_forall in W. apply W. eapply nth_error_In; eauto. }
  destruct W1 as [W1 W2]. rewrite Ev in W1, W2. inversion W2 as [|? ? Hv W3]; subst.
  set (sh := map (fun v => nth v (v_labels g) 0) (w :: ws)).
  set (F := snd (fac i)).
  assert (E : optimize T ACC g (fac i) = Ret (Some (v, map (fun j => fold_left (fun m k => a_op ACC (F (j :: coord_of sh k)) m) (seq 0 (size_of sh)) (a_neutral ACC)) (seq 0 (lab v))))).
  { unfold optimize. rewrite Ev. rewrite (rd_nth _ (v_labels g) v 0) by auto. cbn [bind].
    rewrite (mapM_all _ _ (rd (v_labels g)) (fun v => nth v (v_labels g) 0)); auto. intros a Ha. apply rd_nth. rewrite Forall_forall in W3. apply W3; auto. }
  set (t := map _ _) in E. exists t. split; [|split].
  - eapply mapM_nth; eauto.
  - unfold t. rewrite map_length, seq_length. auto.
  - intros y Hy. assert (Hyv : nth v y 0 < lab v) by (apply in_shape_lt; auto).
    assert (PS : positive sh).
    { unfold sh, positive. apply Forall_forall. intros a Ha. apply in_map_iff in Ha as (u & <- & Hu). rewrite Forall_forall in W3. apply (lab_pos' u). apply W3; auto. }
    assert (X : nth (nth v y 0) t zero = best T ACC (map (fun k => F (nth v y 0 :: coord_of sh k)) (seq 0 (size_of sh)))).
    { unfold t. rewrite nth_map_seq by auto. unfold best. generalize (seq 0 (size_of sh)) as l. generalize (a_neutral ACC) as a0. intros a0 l. revert a0. induction l as [|a l IH]; intros a0; cbn; auto. }
    rewrite X.
    destruct (best_spec T ok OP ACC SL (map (fun k => F (nth v y 0 :: coord_of sh k)) (seq 0 (size_of sh)))) as (B1 & B2 & _).
    + pose proof (size_of_pos _ PS). destruct (size_of sh); [lia|]. cbn. discriminate.
    + apply Forall_forall. intros a Ha. apply in_map_iff in Ha as (k & <- & Hk). apply in_seq in Hk.
      destruct (labeling_of (v_labels g) (v :: w :: ws) (nth v y 0 :: coord_of sh k) PO (sorted_nodup _ W1) W2) as (z & Hz & Ez).
      { cbn [map]. constructor; auto. apply (coord_of_in_shape sh); auto. }
      rewrite <- Ez, <- Ev. apply fval_ok; auto.
    + split; auto. rewrite Forall_forall in B2. apply B2. apply in_map_iff. pose proof (at_vars_shape (v_labels g) y (w :: ws) Hy W3) as AS. fold sh in AS.
      exists (index_of sh (at_vars y (w :: ws))). split.
      * rewrite coord_of_index by auto. unfold fval. rewrite Ev. auto.
      * apply in_seq. pose proof (index_of_lt _ _ AS). lia.
Qed.

(** ** One call *)
Variable p : list nat.
Hypothesis VP : valid T g P p.
Hypothesis LP : length p < n.
Let next := nth (length p) order 0.
Let nl v := label_of order p v.
Definition agree (y : list nat) : Prop := labeling g y /\ pre T P p y = true.
Definition rel (a b : T) : Prop := le a b /\ (S (length p) = n -> a = b).

Lemma olen : length order = n. Proof. exact (order_len T g P OR). Qed.
Lemma ohas : forall v, v < n -> exists k, k < n /\ nth k order 0 = v. Proof. exact (order_has T g P OR). Qed.
Lemma preiff : forall y, pre T P p y = true <-> forall k, k < length p -> nth (nth k order 0) y 0 = nth k p 0.
Proof. intros y. apply (pre_iff T g P OR). fold n. lia. Qed.
Lemma next_lt : next < n. Proof. apply (order_lt T g P OR). auto. Qed.
Lemma nl_known : forall k, k < length p -> nl (nth k order 0) = Some (nth k p 0).
Proof.
  intros k Hk. unfold nl, label_of. apply label_some.
  - rewrite map_fst_combine. apply NoDup_firstn. apply (order_nodup T g P OR).
  - replace (nth k order 0, nth k p 0) with (nth k (combine (firstn (length p) order) p) (0, 0)).
    + replace (combine order p) with (combine (firstn (length p) order) p).
      * apply nth_In. rewrite combine_length, firstn_length, olen. fold n. lia.
      * clear. revert p. induction order as [|a l IH]; intros [|b q]; cbn; auto. rewrite IH. auto.
    + rewrite combine_nth by (rewrite firstn_length, olen; fold n; lia). rewrite nth_firstn_lt by auto. auto.
Qed.
Lemma nl_unknown : forall k, length p <= k -> k < n -> nl (nth k order 0) = None.
Proof.
  intros k H1 H2. unfold nl, label_of. apply label_none. rewrite map_fst_combine. intros X. apply (In_nth _ _ 0) in X as (j & Hj & E).
  rewrite firstn_length, olen in Hj. rewrite nth_firstn_lt in E by lia.
  pose proof (proj1 (NoDup_nth order 0) (order_nodup T g P OR) j k) as Q. rewrite olen in Q. fold n in Q. specialize (Q ltac:(lia) H2 E). lia.
Qed.
Lemma nl_next : nl next = None. Proof. apply nl_unknown; auto. Qed.
Lemma nl_label : forall y v a, agree y -> v < n -> nl v = Some a -> nth v y 0 = a.
Proof.
  intros y v a [HL HP] Hv E. destruct (ohas v Hv) as (k & Hk & <-). destruct (lt_dec k (length p)).
  - rewrite nl_known in E by auto. injection E as <-. apply (proj1 (preiff y) HP); auto.
  - rewrite nl_unknown in E by lia. discriminate.
Qed.
Lemma nl_single : forall v, S (length p) = n -> v < n -> nl v = None -> v = next.
Proof.
  intros v H Hv E. destruct (ohas v Hv) as (k & Hk & <-). destruct (lt_dec k (length p)).
  - rewrite nl_known in E by auto. discriminate.
  - unfold next. f_equal. lia.
Qed.
Lemma agree_exists : exists y, agree y.
Proof. exists (fill T g P p). apply (fill_ok T g (proj2 WF) P OR); auto. Qed.
Lemma rel_refl : forall a, ok a -> rel a a.
Proof. intros a Ka. split; auto. apply (le_refl T ok OP ACC SL); auto. Qed.
Lemma rel_trans : forall a b c, ok a -> ok b -> ok c -> rel a b -> rel b c -> rel a c.
Proof. intros a b c Ka Kb Kc [A1 A2] [B1 B2]. split; [apply (le_trans T ok OP ACC SL a b c); auto|]. intros H. rewrite A2, B2; auto. Qed.
Lemma rel_op : forall a b c d, ok a -> ok b -> ok c -> ok d -> rel a b -> rel c d -> rel (op a c) (op b d).
Proof. intros a b c d Ka Kb Kc Kd [A1 A2] [B1 B2]. split; [apply (le_op2 T ok OP ACC SL); auto|]. intros H. rewrite A2, B2; auto. Qed.
Lemma bigo_rel : forall (l : list nat) f h, (forall k, In k l -> ok (f k) /\ ok (h k) /\ rel (f k) (h k)) -> rel (bigo T OP l f) (bigo T OP l h).
Proof.
  intros l f h H. split.
  - apply (bigo_le T ok OP ACC SL). intros k Hk. destruct (H k Hk) as (A & B & C & _). auto.
  - intros E. apply bigo_ext. intros k Hk. apply H; auto.
Qed.
Lemma bigo_snoc : forall k f, (forall i, i <= k -> ok (f i)) -> bigo T OP (seq 0 (S k)) f = op (f k) (bigo T OP (seq 0 k) f).
Proof.
  intros k f H. rewrite seq_S. rewrite (bigo_app T ok OP ACC SL).
  - cbn [bigo fold_right Nat.add]. rewrite (unit_r T ok OP ACC SL) by auto. apply (sl_comm _ _ _ SL); auto. apply (bigo_ok T ok OP ACC SL). intros i Hi. apply in_seq in Hi. apply H. lia.
  - intros i Hi. apply H. apply in_app_or in Hi as [Hi|Hi]; [apply in_seq in Hi; lia|destruct Hi as [<-|[]]; lia].
Qed.

Definition touches (i id : nat) : bool := existsb (Nat.eqb i) (fst (fac id)).
Definition cnt (fl : list nat) (i : nat) : nat := length (filter (touches i) fl).
Definition constant (row : list T) : Prop := forall x, In x row -> x = nth 0 row zero.
Definition edge (id : nat) : Prop := id < length (v_factors g) /\ nth id tr false = true /\ exists a b, fst (fac id) = [a; b] /\ nl a = None /\ nl b = None.
Definition Run (k : nat) (h : fheur T) : Prop :=
  rows (fh_energy h) /\ (forall i, i < n -> nl i = None -> length (nth i (fh_energy h) []) = lab i) /\
  (forall i a, i < n -> nl i = Some a -> constant (nth i (fh_energy h) [])) /\
  length (fh_degree h) = n /\ (forall i, i < n -> nth i (fh_degree h) 0 = cnt (fh_list h) i) /\
  NoDup (fh_list h) /\ Forall (fun id => id < k /\ edge id) (fh_list h) /\
  forall y, agree y -> rel (op (EV (fh_energy h) y) (bigo T OP (fh_list h) (fval y))) (bigo T OP (seq 0 k) (fval' y)).

Lemma list_ok : forall k h y, Forall (fun id => id < k /\ edge id) h -> labeling g y -> ok (bigo T OP h (fval y)).
Proof. intros k h y H HL. apply (bigo_ok T ok OP ACC SL). intros i Hi. rewrite Forall_forall in H. destruct (H i Hi) as (_ & X & _). apply fval_ok; auto. Qed.
Lemma all_ok : forall k y, k <= length (v_factors g) -> labeling g y -> ok (bigo T OP (seq 0 k) (fval' y)).
Proof. intros k y H HL. apply (bigo_ok T ok OP ACC SL). intros i Hi. apply in_seq in Hi. apply fval'_ok; auto. lia. Qed.

(** A row gets the value of the factor. *)
Lemma run_row : forall k h v row x, k < length (v_factors g) -> Run k h -> v < n -> row <> [] -> Forall ok row ->
  (nl v = None -> length row = lab v) -> (forall a, nl v = Some a -> constant row) ->
  (forall y, agree y -> ok (x y) /\ rv T zero row (nth v y 0) = op (x y) (rv T zero (nth v (fh_energy h) []) (nth v y 0)) /\ rel (x y) (fval' y k)) ->
  Run (S k) (mkFheur (upd (fh_energy h) v row) (fh_degree h) (fh_list h)).
Proof.
  intros k h v row x Hk (R1 & R2 & R3 & R4 & R5 & R6 & R7 & R8) Hv Hn Ho HL HC HX. unfold Run. cbn [fh_energy fh_degree fh_list].
  assert (LE : length (fh_energy h) = n) by apply R1.
  split; [apply rows_upd; auto|]. split; [|split; [|split; [exact R4|split; [exact R5|split; [exact R6|split]]]]].
  - intros i Hi Ei. destruct (Nat.eq_dec v i) as [->|Ne]; [rewrite nth_upd_eq by lia; auto|rewrite nth_upd_neq by auto; auto].
  - intros i a Hi Ei. destruct (Nat.eq_dec v i) as [->|Ne]; [rewrite nth_upd_eq by lia; eauto|rewrite nth_upd_neq by auto; eauto].
  - eapply Forall_impl; [|exact R7]. intros id [A B]. split; auto.
  - intros y Hy. destruct (HX y Hy) as (Kx & Ex & Rx). rewrite (EV_upd _ _ _ y (x y)) by auto.
    destruct Hy as [Hy1 Hy2]. assert (Hy : agree y) by (split; auto).
    assert (K1 : ok (EV (fh_energy h) y)) by (apply EV_ok; auto). assert (K2 := list_ok _ _ y R7 Hy1). assert (K3 := all_ok k y ltac:(lia) Hy1). assert (K4 := fval'_ok y k Hk Hy1).
    rewrite bigo_snoc by (intros i Hi; apply fval'_ok; auto; lia). rewrite <- (sl_assoc _ _ _ SL) by auto.
    apply rel_op; auto. apply (sl_op _ _ _ SL); auto.
Qed.
Lemma run_free : forall k h v F hh, k < length (v_factors g) -> Run k h -> v < n -> nl v = None ->
  (forall j, j < lab v -> F j = Ret (hh j)) -> (forall j, j < lab v -> ok (hh j)) -> (forall y, agree y -> rel (hh (nth v y 0)) (fval' y k)) ->
  exists e, bump_all T OP g (fh_energy h) v F = Ret e /\ Run (S k) (mkFheur e (fh_degree h) (fh_list h)).
Proof.
  intros k h v F hh Hk HR Hv Ev HF HK HX. destruct HR as (R1 & R2 & R3 & R4) eqn:E0. pose proof (R2 v Hv Ev) as LR.
  eexists. split; [apply bump_all_ok; eauto; rewrite (proj1 R1); auto|]. destruct (proj2 R1 v Hv) as [N1 O1].
  apply (run_row k h v _ (fun y => hh (nth v y 0))); auto.
  - intros Z0. apply (f_equal (@length T)) in Z0. rewrite bumped_len, LR in Z0. pose proof (lab_pos' v Hv). cbn in Z0. lia.
  - apply bumped_ok; auto. rewrite LR. auto.
  - intros _. rewrite bumped_len. auto.
  - intros a Ea. congruence.
  - intros y Hy. assert (Hyv : nth v y 0 < lab v) by (apply in_shape_lt; auto; apply Hy). split; [apply HK; auto|]. split; [apply bumped_rv; rewrite LR; auto|auto].
Qed.
Lemma run_fixed : forall k h v a x, k < length (v_factors g) -> Run k h -> v < n -> nl v = Some a -> ok x -> (forall y, agree y -> x = fval' y k) ->
  exists e, (e <- shrink T zero (fh_energy h) v ;; bump T OP e v 0 x) = Ret e /\ Run (S k) (mkFheur e (fh_degree h) (fh_list h)).
Proof.
  intros k h v a x Hk HR Hv Ev Kx HX. destruct HR as (R1 & R2 & R3 & R4) eqn:E0. destruct (proj2 R1 v Hv) as [N1 O1]. pose proof (proj1 R1) as L1.
  rewrite shrink_ok by auto. cbn [bind]. set (c := nth 0 (nth v (fh_energy h) []) zero).
  assert (Kc : ok c) by (rewrite Forall_forall in O1; apply O1; unfold c; destruct (nth v (fh_energy h) []); [congruence|left; auto]).
  rewrite bump_ok.
  - eexists. split; [reflexivity|]. rewrite upd_upd_eq. rewrite nth_upd_eq by lia. cbn [nth upd].
    apply (run_row k h v _ (fun _ => x)); auto.
    + discriminate.
    + constructor; [apply (sl_op _ _ _ SL); auto|constructor].
    + intros E. congruence.
    + intros b _ z [<-|[]]. auto.
    + intros y Hy. split; auto. split; [|rewrite (HX y Hy); apply rel_refl; rewrite <- (HX y Hy); auto].
      replace (rv T zero [op x c] (nth v y 0)) with (op x c) by (unfold rv; cbn; destruct (nth v y 0) as [|[|q]]; auto).
      f_equal. symmetry. apply (R3 v a Hv Ev). apply rv_in; auto.
  - rewrite length_upd. lia.
  - rewrite nth_upd_eq by lia. cbn. lia.
Qed.

Variable s : astar T.
Hypothesis ST : static T P tr opt s.
Let nodeLabel := map (label_of order p) (seq 0 n).
Lemma nl_rd : forall v, v < n -> rd nodeLabel v = Ret (nl v).
Proof. intros v Hv. rewrite (rd_nth _ _ _ None) by (unfold nodeLabel; rewrite map_length, seq_length; auto). unfold nodeLabel. rewrite nth_map_seq by auto. auto. Qed.
Lemma fval_val : forall y k vis F, fac k = (vis, F) -> vis <> [] -> fval' y k = F (at_vars y vis).
Proof. intros y k vis F E H. unfold fval', fval. rewrite E. cbn [fst snd]. destruct vis; [congruence|]. auto. Qed.
Lemma free_two : forall a b, nl a = None -> nl b = None -> a < n -> b < n -> a <> b -> S (length p) = n -> False.
Proof. intros a b Ea Eb Ha Hb Ne E. apply Ne. rewrite (nl_single a), (nl_single b); auto. Qed.
Lemma cnt_cons : forall id fl i, cnt (id :: fl) i = (if touches i id then 1 else 0) + cnt fl i.
Proof. intros. unfold cnt. cbn [filter]. destruct (touches i id); auto. Qed.
Lemma labels_exist : forall vis c, NoDup vis -> Forall (fun v => v < n) vis -> in_shape (map lab vis) c -> exists y, labeling g y /\ at_vars y vis = c.
Proof. intros vis c H1 H2 H3. apply labeling_of; auto. apply WF. Qed.

Lemma factor_ok : forall k h, k < length (v_factors g) -> Run k h -> exists h', fh_factor T OP zero g s nodeLabel h k = Ret h' /\ Run (S k) h'.
Proof.
  intros k h Hk HR. unfold fh_factor. rewrite fac_rd by auto. cbn [bind]. destruct (fac_vars k Hk) as (V1 & V2 & V3).
  destruct (fac k) as [vis F] eqn:EF. cbn [fst] in V1, V2, V3.
  assert (KF : forall y, labeling g y -> ok (F (at_vars y vis))) by (intros y Hy; pose proof (fval_ok y k Hk Hy) as X; unfold fval in X; rewrite EF in X; exact X).
  destruct vis as [|v [|w [|u vis]]]; [| | |cbn in V3; lia].
  - exists h. split; [reflexivity|]. destruct HR as (R1 & R2 & R3 & R4 & R5 & R6 & R7 & R8).
    split; [exact R1|]. split; [exact R2|]. split; [exact R3|]. split; [exact R4|]. split; [exact R5|]. split; [exact R6|]. split.
    + eapply Forall_impl; [|exact R7]. intros id [A B]. split; auto.
    + intros y Hy. rewrite bigo_snoc by (intros i Hi; apply fval'_ok; [lia|apply Hy]). unfold fval' at 1. rewrite EF. cbn [fst length Nat.eqb].
      rewrite (sl_unit _ _ _ SL); auto. apply all_ok; [lia|apply Hy].
  - inversion V2 as [|? ? Hv _]; subst. rewrite nl_rd by auto. cbn [bind]. destruct (nl v) as [a|] eqn:Ev.
    + assert (HX : forall y, agree y -> F [a] = fval' y k).
      { intros y Hy. rewrite (fval_val y k [v] F) by (auto; discriminate). unfold at_vars. cbn [map]. rewrite (nl_label y v a); auto. }
      destruct agree_exists as (y0 & Hy0).
      destruct (run_fixed k h v a (F [a]) Hk HR Hv Ev) as (e & E & HR').
      * rewrite (HX y0 Hy0). apply fval'_ok; auto. apply Hy0.
      * exact HX.
      * rewrite E. cbn [bind]. eauto.
    + destruct (run_free k h v (fun j => Ret (F [j])) (fun j => F [j]) Hk HR Hv Ev) as (e & E & HR'); auto.
      * intros j Hj. destruct (labels_exist [v] [j]) as (y & Hy & Ey); auto; [apply sorted_nodup; auto|repeat constructor; auto|]. rewrite <- Ey. auto.
      * intros y Hy. rewrite (fval_val y k [v] F) by (auto; discriminate). apply rel_refl. apply KF. apply Hy.
      * rewrite E. cbn [bind]. eauto.
  - inversion V2 as [|? ? Hv V2']; subst. inversion V2' as [|? ? Hw _]; subst. assert (NE : v <> w) by (inversion V1 as [|? ? _ Q]; inversion Q; lia).
    assert (ND : NoDup [v; w]) by (apply sorted_nodup; auto).
    rewrite !nl_rd by auto. cbn [bind]. destruct (nl v) as [a|] eqn:Ev; destruct (nl w) as [b|] eqn:Ew.
    + assert (HX : forall y, agree y -> F [a; b] = fval' y k).
      { intros y Hy. rewrite (fval_val y k [v; w] F) by (auto; discriminate). unfold at_vars. cbn [map]. rewrite (nl_label y v a), (nl_label y w b); auto. }
      destruct agree_exists as (y0 & Hy0).
      destruct (run_fixed k h v a (F [a; b]) Hk HR Hv Ev) as (e & E & HR').
      * rewrite (HX y0 Hy0). apply fval'_ok; auto. apply Hy0.
      * exact HX.
      * destruct (shrink T zero (fh_energy h) v) as [e1| | |]; cbn [bind] in E |- *; try discriminate. rewrite E. cbn [bind]. eauto.
    + assert (Ha : a < lab v). { destruct agree_exists as (y0 & Hy0). rewrite <- (nl_label y0 v a); auto. apply in_shape_lt; auto. apply Hy0. }
      destruct (run_free k h w (fun j => Ret (F [a; j])) (fun j => F [a; j]) Hk HR Hw Ew) as (e & E & HR'); auto.
      * intros j Hj. destruct (labels_exist [v; w] [a; j]) as (y & Hy & Ey); auto; [repeat constructor; auto|]. rewrite <- Ey. auto.
      * intros y Hy. rewrite (fval_val y k [v; w] F) by (auto; discriminate). unfold at_vars. cbn [map]. rewrite (nl_label y v a) by auto. apply rel_refl.
        pose proof (KF y (proj1 Hy)) as X. unfold at_vars in X. cbn [map] in X. rewrite (nl_label y v a) in X; auto.
      * rewrite E. cbn [bind]. eauto.
    + assert (Hb : b < lab w). { destruct agree_exists as (y0 & Hy0). rewrite <- (nl_label y0 w b); auto. apply in_shape_lt; auto. apply Hy0. }
      destruct (run_free k h v (fun j => Ret (F [j; b])) (fun j => F [j; b]) Hk HR Hv Ev) as (e & E & HR'); auto.
      * intros j Hj. destruct (labels_exist [v; w] [j; b]) as (y & Hy & Ey); auto; [repeat constructor; auto|]. rewrite <- Ey. auto.
      * intros y Hy. rewrite (fval_val y k [v; w] F) by (auto; discriminate). unfold at_vars. cbn [map]. rewrite (nl_label y w b) by auto. apply rel_refl.
        pose proof (KF y (proj1 Hy)) as X. unfold at_vars in X. cbn [map] in X. rewrite (nl_label y w b) in X; auto.
      * rewrite E. cbn [bind]. eauto.
    + destruct ST as (S1 & S2 & S3). rewrite S2. rewrite (rd_nth _ tr k false) by lia. cbn [bind]. destruct (nth k tr false) eqn:Et.
      * destruct HR as (R1 & R2 & R3 & R4 & R5 & R6 & R7 & R8).
        rewrite (rd_nth _ _ v 0) by lia. cbn [bind]. rewrite wr_Ret by lia. cbn [bind].
        rewrite (rd_nth _ _ w 0) by (rewrite length_upd; lia). cbn [bind]. rewrite wr_Ret by (rewrite length_upd; lia). cbn [bind].
        eexists. split; [reflexivity|]. unfold Run. cbn [fh_energy fh_degree fh_list].
        split; [exact R1|]. split; [exact R2|]. split; [exact R3|]. split; [rewrite !length_upd; exact R4|]. split; [|split; [|split]].
        -- intros i Hi. rewrite cnt_cons. rewrite (nth_upd_neq _ _ v w) by auto. unfold touches. rewrite EF. cbn [fst existsb]. rewrite orb_false_r.
           destruct (Nat.eq_dec w i) as [->|Nw].
           ++ rewrite nth_upd_eq by (rewrite length_upd; lia). rewrite Nat.eqb_refl, orb_true_r. rewrite R5 by auto. auto.
           ++ rewrite nth_upd_neq by auto. destruct (Nat.eqb_spec i w); [lia|]. rewrite orb_false_r. destruct (Nat.eqb_spec i v) as [->|Nv].
              ** rewrite nth_upd_eq by lia. rewrite R5 by auto. auto.
              ** rewrite nth_upd_neq by auto. rewrite R5 by auto. auto.
        -- constructor; auto. intros X. rewrite Forall_forall in R7. specialize (R7 k X). lia.
        -- constructor.
           ++ split; auto. split; [exact Hk|]. split; [exact Et|]. exists v, w. rewrite EF. auto.
           ++ eapply Forall_impl; [|exact R7]. intros id [A B]. split; auto.
        -- intros y Hy. rewrite bigo_snoc by (intros i Hi; apply fval'_ok; [lia|apply Hy]).
           assert (Efv : fval' y k = fval y k) by (unfold fval'; rewrite EF; auto). rewrite Efv. cbn [bigo fold_right]. fold (bigo T OP (fh_list h) (fval y)).
           assert (K1 : ok (EV (fh_energy h) y)) by (apply EV_ok; auto). assert (K2 := list_ok _ _ y R7 (proj1 Hy)). assert (K3 := all_ok k y ltac:(lia) (proj1 Hy)). assert (K4 := fval_ok y k Hk (proj1 Hy)).
           rewrite (op_swap T ok OP ACC SL) by auto. apply rel_op; auto.
           ++ apply (sl_op _ _ _ SL); auto.
           ++ apply rel_refl; auto.
      * destruct (optimize_ok k v w [] Hk) as (t & E1 & E2 & E3); [rewrite EF; auto|].
        assert (OPT : forall j, j < lab v -> optimized T s k j = Ret (nth j t zero)).
        { intros j Hj. unfold optimized. rewrite S3. rewrite (rd_Ret _ _ _ _ E1). cbn [bind]. apply rd_nth. lia. }
        destruct (run_free k h v (optimized T s k) (fun j => nth j t zero) Hk HR Hv Ev OPT) as (e & E & HR').
        -- intros j Hj. destruct (labels_exist [v] [j]) as (y & Hy & Ey); auto; [repeat constructor; auto|repeat constructor; auto|]. unfold at_vars in Ey. cbn in Ey. injection Ey as Ey. rewrite <- Ey. apply E3; auto.
        -- intros y Hy. rewrite (fval_val y k [v; w] F) by (auto; discriminate). split.
           ++ destruct (E3 y (proj1 Hy)) as [_ X]. unfold fval in X. rewrite EF in X. exact X.
           ++ intros X. exfalso. apply (free_two v w); auto.
        -- rewrite E. cbn [bind]. eauto.
Qed.

Lemma init_ok : Run 0 (mkFheur (map (fun k => repeat one k) (v_labels g)) (repeat 0 n) []).
Proof.
  assert (RW : forall i, nth i (map (fun k => repeat one k) (v_labels g)) [] = repeat one (lab i)) by (intros i; apply (map_nth (fun k => repeat one k) (v_labels g) 0 i)).
  assert (RO : rows (map (fun k => repeat one k) (v_labels g))).
  { split; [apply map_length|]. intros i Hi. rewrite RW. pose proof (lab_pos' i Hi). split; [destruct (lab i); [lia|discriminate]|].
    apply Forall_forall. intros x Hx. apply repeat_spec in Hx. subst. apply (sl_neutral _ _ _ SL). }
  unfold Run. cbn [fh_energy fh_degree fh_list]. split; [exact RO|]. split; [intros i Hi _; rewrite RW; apply repeat_length|].
  split; [|split; [apply repeat_length|split; [intros i Hi; rewrite nth_repeat; auto|split; [constructor|split; [constructor|]]]]].
  - intros i a Hi Ei x Hx. rewrite RW in *. apply repeat_spec in Hx. subst. pose proof (lab_pos' i Hi). destruct (lab i); [lia|]. auto.
  - intros y Hy. cbn [bigo fold_right]. rewrite (unit_r T ok OP ACC SL) by (apply EV_ok; auto).
    replace (EV (map (fun k => repeat one k) (v_labels g)) y) with one; [apply rel_refl; apply (sl_neutral _ _ _ SL)|].
    unfold EV. assert (X : forall l, (forall i, In i l -> i < n) -> one = bigo T OP l (fun i => rv T zero (nth i (map (fun k => repeat one k) (v_labels g)) []) (nth i y 0))).
    { induction l as [|i l IH]; intros H; auto. cbn [bigo fold_right]. fold (bigo T OP l (fun i => rv T zero (nth i (map (fun k => repeat one k) (v_labels g)) []) (nth i y 0))).
      rewrite <- IH by (intros; apply H; right; auto). rewrite RW.
      replace (rv T zero (repeat one (lab i)) (nth i y 0)) with one; [rewrite (sl_unit _ _ _ SL); auto; apply (sl_neutral _ _ _ SL)|].
      symmetry. apply (repeat_spec (lab i)). apply rv_in. pose proof (lab_pos' i (H i (or_introl eq_refl))). destruct (lab i); [lia|discriminate]. }
    apply X. intros i Hi. apply in_seq in Hi. lia.
Qed.

(** ** The elimination of leaves *)
Definition LI (h : fheur T) : Prop :=
  rows (fh_energy h) /\ (forall i, i < n -> i = next \/ 0 < cnt (fh_list h) i -> length (nth i (fh_energy h) []) = lab i) /\
  (forall i a, i < n -> nl i = Some a -> constant (nth i (fh_energy h) [])) /\
  length (fh_degree h) = n /\ (forall i, i < n -> nth i (fh_degree h) 0 = cnt (fh_list h) i + (if i =? next then n else 0)) /\
  NoDup (fh_list h) /\ Forall edge (fh_list h) /\
  forall y, agree y -> rel (op (EV (fh_energy h) y) (bigo T OP (fh_list h) (fval y))) (R y).

Lemma pass_min : forall F row m, m <= length row ->
  foldM (fun b j => y <- rd row j ;; Ret (a_op ACC (op (F j) y) b)) (seq 0 m) (a_neutral ACC) = Ret (best T ACC (map (fun j => op (F j) (nth j row zero)) (seq 0 m))).
Proof.
  intros F row m Hm. unfold best. generalize (a_neutral ACC) as b. assert (H : forall j, In j (seq 0 m) -> j < length row) by (intros j Hj; apply in_seq in Hj; lia).
  revert H. generalize (seq 0 m) as l. induction l as [|j l IH]; intros H b; auto. cbn [foldM map fold_left]. rewrite (rd_nth _ row j zero) by (apply H; left; auto). cbn [bind].
  apply IH. intros i Hi. apply H. right; auto.
Qed.
(** Node a, whose only factor is [id], is eliminated. *)
Lemma pass_ok : forall h id rest a b F, LI (mkFheur (fh_energy h) (fh_degree h) (id :: rest)) -> fh_list h = rest ->
  (fst (fac id) = [a; b] /\ (forall j k, F j k = snd (fac id) [j; k])) \/ (fst (fac id) = [b; a] /\ (forall j k, F j k = snd (fac id) [k; j])) ->
  nth a (fh_degree h) 0 = 1 ->
  exists h', pass T OP ACC zero g h a b F = Ret h' /\ LI h' /\ fh_list h' = rest.
Proof.
  intros h id rest a b F HI Hl HF Hd. destruct HI as (R1 & R2 & R3 & R4 & R5 & R6 & R7 & R8). cbn [fh_energy fh_degree fh_list] in *.
  inversion R7 as [|? ? ED R7']; subst. inversion R6 as [|? ? NI R6']; subst. destruct ED as (Hid & Htr & a0 & b0 & E0 & N1 & N2).
  destruct (fac_vars id Hid) as (V1 & V2 & _).
  assert (AB : a < n /\ b < n /\ a <> b /\ nl a = None /\ nl b = None /\ touches a id = true /\ touches b id = true /\ forall i, i <> a -> i <> b -> touches i id = false).
  { unfold touches. rewrite E0 in *. inversion V2 as [|? ? Q1 Q2]; subst. inversion Q2 as [|? ? Q3 _]; subst. inversion V1 as [|? ? _ Q4]; subst. inversion Q4 as [|? ? Q5 _]; subst.
    cbn [fst existsb]. destruct HF as [[Z0 _]|[Z0 _]]; injection Z0 as <- <-; repeat split; auto; try lia; rewrite ?Nat.eqb_refl, ?orb_true_r; auto;
    intros i H1 H2; destruct (Nat.eqb_spec i a0), (Nat.eqb_spec i b0); auto; try lia; congruence. }
  destruct AB as (Ha & Hb & NE & Na & Nb & Ta & Tb & To).
  assert (Da := R5 a Ha). rewrite Hd, cnt_cons, Ta in Da.
  assert (An : a <> next) by (intros ->; rewrite Nat.eqb_refl in Da; lia). rewrite (proj2 (Nat.eqb_neq a next) An) in Da.
  assert (Ca : cnt (fh_list h) a = 0) by lia.
  assert (La : length (nth a (fh_energy h) []) = lab a) by (apply R2; auto; right; rewrite cnt_cons, Ta; lia).
  assert (Lb : length (nth b (fh_energy h) []) = lab b) by (apply R2; auto; right; rewrite cnt_cons, Tb; lia).
  assert (KF : forall j k, j < lab a -> k < lab b -> ok (F j k)).
  { intros j k Hj Hk. destruct HF as [[E HF]|[E HF]]; rewrite HF.
    - destruct (labels_exist [a; b] [j; k]) as (y & Hy & Ey); [rewrite <- E; apply sorted_nodup; auto|repeat constructor; auto|repeat constructor; auto|]. rewrite <- Ey, <- E. apply fval_ok; auto.
    - destruct (labels_exist [b; a] [k; j]) as (y & Hy & Ey); [rewrite <- E; apply sorted_nodup; auto|repeat constructor; auto|repeat constructor; auto|]. rewrite <- Ey, <- E. apply fval_ok; auto. }
  assert (VF : forall y, fval y id = F (nth a y 0) (nth b y 0)).
  { intros y. unfold fval. destruct HF as [[E HF]|[E HF]]; rewrite HF, E; auto. }
  pose proof (proj1 R1) as LE. destruct (proj2 R1 a Ha) as [NNa Oa]. destruct (proj2 R1 b Hb) as [NNb Ob].
  set (mn := fun k => best T ACC (map (fun j => op (F j k) (nth j (nth a (fh_energy h) []) zero)) (seq 0 (lab a)))).
  assert (ON : forall k, k < lab b -> Forall ok (map (fun j => op (F j k) (nth j (nth a (fh_energy h) []) zero)) (seq 0 (lab a)))).
  { intros k Hk. apply Forall_forall. intros x Hx. apply in_map_iff in Hx as (j & <- & Hj). apply in_seq in Hj. apply (sl_op _ _ _ SL); [apply KF; lia|].
    rewrite Forall_forall in Oa. apply Oa. apply nth_In. lia. }
  assert (NN : forall k, map (fun j => op (F j k) (nth j (nth a (fh_energy h) []) zero)) (seq 0 (lab a)) <> []) by (intros k; pose proof (lab_pos' a Ha); destruct (lab a); [lia|discriminate]).
  unfold pass. rewrite (rd_nth _ (v_labels g) a 0) by auto. cbn [bind]. fold (lab a).
  rewrite (bump_all_ok _ b _ mn) by (auto; try lia; intros k Hk; rewrite (rd_nth _ _ a []) by lia; cbn [bind]; rewrite (pass_min (fun j => F j k)) by lia; auto). cbn [bind].
  set (row := bumped mn (nth b (fh_energy h) [])). set (e1 := upd (fh_energy h) b row).
  rewrite (rd_nth _ _ a 0) by lia. cbn [bind]. rewrite wr_Ret by lia. cbn [bind]. rewrite (rd_nth _ _ b 0) by (rewrite length_upd; lia). cbn [bind]. rewrite wr_Ret by (rewrite length_upd; lia). cbn [bind].
  assert (KR : Forall ok row) by (apply bumped_ok; auto; intros k Hk; rewrite Lb in Hk; apply (best_spec T ok OP ACC SL); auto).
  assert (LR : length row = lab b) by (unfold row; rewrite bumped_len; auto).
  assert (NR : row <> []) by (pose proof (lab_pos' b Hb); destruct row; [cbn in LR; lia|discriminate]).
  assert (RE1 : rows e1) by (apply rows_upd; auto).
  rewrite shrink_ok by auto. cbn [bind]. rewrite wr_Ret by (rewrite length_upd; unfold e1; rewrite length_upd; lia). cbn [bind]. rewrite upd_upd_eq.
  eexists. split; [reflexivity|]. split; [|reflexivity]. unfold LI. cbn [fh_energy fh_degree fh_list].
  assert (LE1 : length e1 = n) by apply RE1.
  assert (RE2 : rows (upd e1 a [one])) by (apply rows_upd; auto; [discriminate|constructor; [apply (sl_neutral _ _ _ SL)|constructor]]).
  split; [exact RE2|]. split; [|split; [|split; [|split; [|split; [exact R6'|split; [exact R7'|]]]]]].
  - intros i Hi Ci. assert (Ni : i <> a) by (intros ->; destruct Ci; [congruence|lia]). rewrite nth_upd_neq by auto. unfold e1. destruct (Nat.eq_dec b i) as [->|Nbi].
    + rewrite nth_upd_eq by lia. auto.
    + rewrite nth_upd_neq by auto. apply R2; auto. destruct Ci as [Ci|Ci]; auto. right. rewrite cnt_cons. lia.
  - intros i c Hi Ei. assert (Ni : a <> i) by congruence. assert (Ni' : b <> i) by congruence. rewrite nth_upd_neq by auto. unfold e1. rewrite nth_upd_neq by auto. eauto.
  - rewrite !length_upd. auto.
  - intros i Hi. specialize (R5 i Hi). rewrite cnt_cons in R5. destruct (Nat.eq_dec b i) as [->|Nbi].
    + rewrite nth_upd_eq by (rewrite length_upd; lia). rewrite (nth_upd_neq _ _ a i) by auto. rewrite Tb in R5. lia.
    + rewrite nth_upd_neq by auto. destruct (Nat.eq_dec a i) as [->|Nai].
      * rewrite nth_upd_eq by lia. rewrite Ta in R5. lia.
      * rewrite nth_upd_neq by auto. rewrite To in R5 by auto. lia.
  - intros y Hy. specialize (R8 y Hy). cbn [bigo fold_right] in R8. fold (bigo T OP (fh_list h) (fval y)) in R8. pose proof Hy as [HL _].
    assert (Hya : nth a y 0 < lab a) by (apply in_shape_lt; auto). assert (Hyb : nth b y 0 < lab b) by (apply in_shape_lt; auto).
    set (B := bigo T OP (fh_list h) (fval y)) in *. assert (KB : ok B) by (apply (bigo_ok T ok OP ACC SL); intros i Hi; rewrite Forall_forall in R7'; apply fval_ok; auto; apply R7'; auto).
    set (ya := nth a y 0) in *. set (yb := nth b y 0) in *.
    set (ea := rv T zero (nth a (fh_energy h) []) ya). assert (Kea : ok ea) by (apply rv_ok; auto).
    set (m := mn yb). destruct (best_spec T ok OP ACC SL _ (NN yb) (ON yb Hyb)) as (Km & Bm & _). fold (mn yb) in Km, Bm. fold m in Km, Bm.
    assert (Kf : ok (F ya yb)) by (apply KF; auto).
    (* the energies without node a *)
    set (e0 := upd (fh_energy h) a [one]). assert (RE0 : rows e0) by (apply rows_upd; auto; [discriminate|constructor; [apply (sl_neutral _ _ _ SL)|constructor]]).
    assert (K0 : ok (EV e0 y)) by (apply EV_ok; auto).
    assert (rvone : forall c j, rv T zero [c] j = c) by (intros c [|[|j]]; auto).
    assert (X1 : EV (fh_energy h) y = op ea (EV e0 y)).
    { replace (fh_energy h) with (upd e0 a (nth a (fh_energy h) [])) at 1.
      - apply EV_upd; auto. unfold e0. rewrite nth_upd_eq by lia. rewrite rvone. fold ya. rewrite (unit_r T ok OP ACC SL); auto.
      - unfold e0. rewrite upd_upd_eq. apply upd_same. apply nth_error_nth'. lia. }
    assert (X2 : EV (upd e1 a [one]) y = op m (EV e0 y)).
    { replace (upd e1 a [one]) with (upd e0 b row).
      - apply EV_upd; auto. unfold row. rewrite bumped_rv by lia. fold yb. unfold m. f_equal. unfold e0. rewrite nth_upd_neq by auto. auto.
      - unfold e0, e1. apply upd_swap. auto. }
    rewrite X2. rewrite X1, VF in R8. fold ya yb in R8.
    assert (KL1 : ok (op (op m (EV e0 y)) B)) by (repeat apply (sl_op _ _ _ SL); auto).
    assert (KL2 : ok (op (op ea (EV e0 y)) (op (F ya yb) B))) by (repeat apply (sl_op _ _ _ SL); auto).
    assert (KR' : ok (R y)) by (apply all_ok; auto).
    apply (rel_trans _ (op (op ea (EV e0 y)) (op (F ya yb) B))); auto. split.
    + replace (op (op ea (EV e0 y)) (op (F ya yb) B)) with (op (op (op (F ya yb) ea) (EV e0 y)) B).
      * rewrite <- !(sl_assoc _ _ _ SL) by (auto; apply (sl_op _ _ _ SL); auto). rewrite (sl_assoc _ _ _ SL (F ya yb)) by (auto; apply (sl_op _ _ _ SL); auto).
        apply (le_op2 T ok OP ACC SL); auto; try (apply (sl_op _ _ _ SL); auto); [|apply (le_refl T ok OP ACC SL); apply (sl_op _ _ _ SL); auto].
        rewrite Forall_forall in Bm. apply Bm. apply in_map_iff. exists ya. split; [|apply in_seq; lia]. f_equal. unfold ea, rv. apply nth_indep. lia.
      * rewrite <- !(sl_assoc _ _ _ SL) by (auto; apply (sl_op _ _ _ SL); auto). rewrite (op_swap T ok OP ACC SL (F ya yb) ea) by (auto; apply (sl_op _ _ _ SL); auto). f_equal.
        apply (op_swap T ok OP ACC SL); auto.
    + intros E. exfalso. apply (free_two a b); auto.
Qed.

(** A set of factors without cycles has a variable, other than the next one, in one factor only. *)
Lemma filter_two : forall V a b, NoDup V -> a <> b -> In a V -> In b V -> length (filter (fun v => existsb (Nat.eqb v) [a; b]) V) = 2.
Proof.
  intros V a b ND NE Ha Hb. assert (X : Permutation (filter (fun v => existsb (Nat.eqb v) [a; b]) V) [a; b]).
  { apply NoDup_Permutation; [apply NoDup_filter; auto|repeat constructor; auto; intros [?|[]]; congruence|].
    intros v. rewrite filter_In. cbn. rewrite orb_false_r, orb_true_iff, !Nat.eqb_eq. split; [intros [_ [->|H]]; auto|intros [<-|[<-|[]]]; auto]. }
  rewrite (Permutation_length X). auto.
Qed.
Definition sum (l : list nat) : nat := fold_right Nat.add 0 l.
Lemma handshake : forall fl V, NoDup V -> (forall id, In id fl -> exists a b, fst (fac id) = [a; b] /\ a <> b /\ In a V /\ In b V) ->
  sum (map (cnt fl) V) = 2 * length fl.
Proof.
  induction fl as [|id fl IH]; intros V ND H.
  - cbn. clear. induction V; cbn; auto.
  - cbn [length]. replace (2 * S (length fl)) with (2 + 2 * length fl) by lia. rewrite <- (IH V ND) by (intros; apply H; right; auto).
    destruct (H id (or_introl eq_refl)) as (a & b & E & NE & Ha & Hb). rewrite <- (filter_two V a b ND NE Ha Hb).
    clear - E. induction V as [|v V IH]; auto. cbn [map sum fold_right filter]. fold (sum (map (cnt (id :: fl)) V)). fold (sum (map (cnt fl) V)).
    rewrite cnt_cons. unfold touches. rewrite E. destruct (existsb (Nat.eqb v) [a; b]); cbn [length]; lia.
Qed.
Lemma leaf : forall fl, fl <> [] -> NoDup fl -> Forall edge fl -> exists id x, In id fl /\ touches x id = true /\ x <> next /\ cnt fl x = 1.
Proof.
  intros fl Hn ND HE. rewrite Forall_forall in HE.
  assert (PV : forall id, In id fl -> exists a b, fst (fac id) = [a; b] /\ a <> b).
  { intros id Hid. destruct (HE id Hid) as (Hi & _ & a & b & E & _). exists a, b. split; auto. destruct (fac_vars id Hi) as (V1 & _). rewrite E in V1. inversion V1 as [|? ? _ Q]. inversion Q. lia. }
  assert (TO : touched g fl = nodup Nat.eq_dec (concat (map (fun id => fst (fac id)) fl))).
  { unfold touched. do 2 f_equal. apply map_ext_in. intros id Hid. rewrite (fac_in id) by (apply HE; auto). destruct (fac id); auto. }
  set (V := touched g fl) in *.
  assert (NV : NoDup V) by (rewrite TO; apply NoDup_nodup).
  assert (IV : forall v, In v V <-> exists id, In id fl /\ In v (fst (fac id))).
  { intros v. rewrite TO, nodup_In, in_concat. split.
    - intros (l & Hl & Hv). apply in_map_iff in Hl as (id & <- & Hid). eauto.
    - intros (id & Hid & Hv). exists (fst (fac id)). split; auto. apply in_map_iff. eauto. }
  assert (BIG : length fl < length V).
  { apply FO; auto. apply Forall_forall. intros id Hid. destruct (HE id Hid) as (Hi & Ht & a & b & E & _). split.
    - apply filter_In. split; auto. apply in_seq. lia.
    - rewrite (fac_in id Hi). destruct (fac id) as [vis F]. cbn in E. subst. eauto. }
  assert (SU : sum (map (cnt fl) V) = 2 * length fl).
  { apply handshake; auto. intros id Hid. destruct (PV id Hid) as (a & b & E & NE). exists a, b. split; auto. split; auto. split; apply IV; exists id; rewrite E; cbn; auto. }
  destruct (existsb (fun v => negb (v =? next) && (cnt fl v =? 1)) V) eqn:EX.
  - apply existsb_exists in EX as (v & Hv & Q). apply andb_true_iff in Q as [Q1 Q2]. apply negb_true_iff, Nat.eqb_neq in Q1. apply Nat.eqb_eq in Q2.
    apply IV in Hv as (id & Hid & Hv). exists id, v. split; auto. split; auto. apply existsb_exists. exists v. split; auto. apply Nat.eqb_refl.
  - exfalso.
    assert (GE : forall v, In v V -> 1 <= cnt fl v /\ (v <> next -> 2 <= cnt fl v)).
    { intros v Hv. assert (G1 : 1 <= cnt fl v).
      { apply IV in Hv as (id & Hid & Hv). unfold cnt. assert (X : In id (filter (touches v) fl)) by (apply filter_In; split; auto; apply existsb_exists; exists v; split; auto; apply Nat.eqb_refl).
        destruct (filter (touches v) fl); [destruct X|cbn; lia]. }
      split; auto. intros Ne. assert (cnt fl v <> 1); [|lia]. intros E1. rewrite <- not_true_iff_false in EX. apply EX. apply existsb_exists. exists v. split; auto.
      rewrite E1, (proj2 (Nat.eqb_neq v next) Ne). auto. }
    assert (SB : forall W, NoDup W -> (forall v, In v W -> 1 <= cnt fl v /\ (v <> next -> 2 <= cnt fl v)) -> 2 * length W <= sum (map (cnt fl) W) + (if existsb (Nat.eqb next) W then 1 else 0)).
    { clear. induction W as [|v W IH]; intros ND H; [cbn; lia|]. inversion ND; subst. specialize (IH H3 (fun u Hu => H u (or_intror Hu))). destruct (H v (or_introl eq_refl)) as [G1 G2].
      cbn [map sum fold_right length existsb]. fold (sum (map (cnt fl) W)). destruct (Nat.eqb_spec next v) as [<-|Ne].
      - cbn [orb]. destruct (existsb (Nat.eqb next) W) eqn:E; [|lia]. apply existsb_exists in E as (u & Hu & Eu). apply Nat.eqb_eq in Eu. subst. tauto.
      - cbn [orb]. assert (v <> next) by congruence. specialize (G2 H0). lia. }
    specialize (SB V NV GE). destruct (existsb (Nat.eqb next) V); lia.
Qed.

Lemma rotate_perm : forall h rest id, Permutation (rest ++ [id]) (id :: rest) -> LI (mkFheur (fh_energy h) (fh_degree h) (id :: rest)) -> LI (mkFheur (fh_energy h) (fh_degree h) (rest ++ [id])).
Proof.
  intros h rest id PR (R1 & R2 & R3 & R4 & R5 & R6 & R7 & R8). unfold LI. cbn [fh_energy fh_degree fh_list] in *.
  assert (CP : forall i, cnt (rest ++ [id]) i = cnt (id :: rest) i).
  { intros i. unfold cnt. rewrite filter_app, app_length. cbn [filter]. destruct (touches i id); cbn [length]; lia. }
  split; [exact R1|]. split; [intros i Hi; rewrite CP; auto|]. split; [exact R3|]. split; [exact R4|]. split; [intros i Hi; rewrite CP; auto|].
  split; [eapply Permutation_NoDup; [apply Permutation_sym|]; eauto|]. split; [rewrite PR; auto|].
  intros y Hy. rewrite (bigo_perm T ok OP ACC SL _ _ _ (fval y) PR); auto. intros i Hi. rewrite Forall_forall in R7. apply fval_ok; [|apply Hy]. apply R7. eapply Permutation_in; eauto.
Qed.
Lemma two_vars : forall id a b, edge id -> fst (fac id) = [a; b] -> a < n /\ b < n /\ a <> b /\ 2 <= n.
Proof.
  intros id a b (Hid & _) E. destruct (fac_vars id Hid) as (V1 & V2 & _). rewrite E in *. inversion V2 as [|? ? Q1 Q2]. inversion Q2. inversion V1 as [|? ? _ Q4]. inversion Q4. repeat split; auto; lia.
Qed.
(** At most the square of the number of factors. *)
Lemma loop_ok : forall m h, length (fh_list h) = m -> LI h -> forall fuel, m * m + 1 <= fuel ->
  exists h', fh_loop T OP ACC zero g fuel h = Ret h' /\ LI h' /\ fh_list h' = [].
Proof.
  induction m as [m IH] using lt_wf_ind. intros h Hm HI fuel HF. destruct (fh_list h) as [|id0 rest0] eqn:EL.
  - exists h. destruct fuel; [lia|]. cbn [fh_loop]. rewrite EL. auto.
  - destruct (leaf (fh_list h)) as (lf & x & Hlf & Tx & Nx & Cx); [rewrite EL; discriminate|apply HI|apply HI|].
    (* the position of a factor that can be removed *)
    apply (In_nth _ _ 0) in Hlf as (q & Hq & Eq).
    assert (ROT : forall c, (m - 1) * (m - 1) + 1 <= c -> forall q h fuel, length (fh_list h) = m -> LI h -> q < m -> touches x (nth q (fh_list h) 0) = true -> cnt (fh_list h) x = 1 -> q + 1 + c <= fuel ->
             exists h', fh_loop T OP ACC zero g fuel h = Ret h' /\ LI h' /\ fh_list h' = []).
    { clear - IH Nx SL WF OK PW OR TL FO OE VP LP ST. intros c Hc.
      induction q as [|q IHq]; intros h fuel Hm HI Hq Tx Cx HF.
      all: destruct fuel as [|fuel]; [lia|].
      all: destruct (fh_list h) as [|id rest] eqn:EL; [cbn in Hm; lia|].
      all: cbn [fh_loop]; rewrite EL.
      all: assert (HI' : LI (mkFheur (fh_energy h) (fh_degree h) (id :: rest))) by (rewrite <- EL; destruct h; exact HI).
      all: assert (ED : edge id) by (destruct HI' as (_ & _ & _ & _ & _ & _ & R7 & _); inversion R7; auto).
      all: pose proof ED as (Hid & _ & a & b & EV0 & Na & Nb).
      all: destruct (two_vars id a b ED EV0) as (Ha & Hb & NE & N2).
      all: assert (LD : length (fh_degree h) = n) by apply HI.
      all: rewrite fac_rd by auto; cbn [bind]; destruct (fac id) as [vis F] eqn:EF; cbn [fst] in EV0; subst vis.
      all: change (rd [a; b] 0) with (Ret a); change (rd [a; b] 1) with (Ret b); cbn [bind fh_energy fh_degree fh_list].
      all: rewrite (rd_nth _ _ a 0), (rd_nth _ _ b 0) by lia; cbn [bind].
      all: destruct (Nat.eqb_spec (nth a (fh_degree h) 0) 1) as [D1|D1].
      1, 3: destruct (pass_ok (mkFheur (fh_energy h) (fh_degree h) rest) id rest a b (fun j k => F [j; k]) HI' eq_refl) as (h' & E' & I' & L'); [left; rewrite EF; auto|exact D1|];
            rewrite E'; cbn [bind]; apply (IH (m - 1)); auto; [cbn in Hm; lia|rewrite L'; cbn in Hm; lia|lia].
      all: destruct (Nat.eqb_spec (nth b (fh_degree h) 0) 1) as [D2|D2].
      1, 3: destruct (pass_ok (mkFheur (fh_energy h) (fh_degree h) rest) id rest b a (fun j k => F [k; j]) HI' eq_refl) as (h' & E' & I' & L'); [right; rewrite EF; auto|exact D2|];
            rewrite E'; cbn [bind]; apply (IH (m - 1)); auto; [cbn in Hm; lia|rewrite L'; cbn in Hm; lia|lia].
      - exfalso. destruct HI' as (_ & _ & _ & _ & R5 & _). cbn [fh_degree fh_list nth] in R5, Tx. unfold touches in Tx. rewrite EF in Tx. cbn [fst existsb] in Tx. rewrite orb_false_r in Tx.
        apply orb_true_iff in Tx as [Tx|Tx]; apply Nat.eqb_eq in Tx; subst x.
        + apply D1. rewrite R5 by auto. rewrite (proj2 (Nat.eqb_neq a next) Nx). lia.
        + apply D2. rewrite R5 by auto. rewrite (proj2 (Nat.eqb_neq b next) Nx). lia.
      - apply IHq; cbn [fh_list].
        + rewrite app_length. cbn in *. lia.
        + apply rotate_perm; auto. symmetry. apply Permutation_cons_append.
        + lia.
        + cbn [length] in Hm. rewrite app_nth1 by lia. exact Tx.
        + rewrite <- Cx. unfold cnt. rewrite filter_app, app_length. cbn [filter]. destruct (touches x id); cbn [length]; lia.
        + lia. }
    rewrite <- EL in Hm. apply (ROT _ (le_n _) q); auto; [lia|rewrite Eq; auto|nia].
Qed.

Lemma run_to_loop : forall h, Run (length (v_factors g)) h ->
  exists d, (dn <- rd (fh_degree h) next ;; wr (fh_degree h) next (dn + n)) = Ret d /\ LI (mkFheur (fh_energy h) d (fh_list h)) /\ length (fh_list h) <= length (v_factors g).
Proof.
  intros h (R1 & R2 & R3 & R4 & R5 & R6 & R7 & R8). pose proof next_lt as Hx. rewrite (rd_nth _ _ next 0) by lia. cbn [bind]. rewrite wr_Ret by lia.
  eexists. split; [reflexivity|]. split.
  - unfold LI. cbn [fh_energy fh_degree fh_list]. split; [exact R1|]. split; [|split; [exact R3|split; [rewrite length_upd; exact R4|split; [|split; [exact R6|split; [|exact R8]]]]]].
    + intros i Hi [Hc|Hc]; [subst i; apply R2; auto; apply nl_next|].
      apply R2; auto. unfold cnt in Hc. destruct (filter (touches i) (fh_list h)) as [|id l] eqn:E; [cbn in Hc; lia|].
      assert (X : In id (filter (touches i) (fh_list h))) by (rewrite E; left; auto). apply filter_In in X as [X1 X2]. rewrite Forall_forall in R7. destruct (R7 id X1) as (_ & _ & _ & a & b & E0 & Na & Nb).
      unfold touches in X2. rewrite E0 in X2. cbn in X2. rewrite orb_false_r in X2. apply orb_true_iff in X2 as [X2|X2]; apply Nat.eqb_eq in X2; subst; auto.
    + intros i Hi. destruct (Nat.eqb_spec i next) as [->|Ne].
      * rewrite nth_upd_eq by lia. rewrite R5 by auto. auto.
      * rewrite nth_upd_neq by auto. rewrite R5 by auto. lia.
    + eapply Forall_impl; [|exact R7]. intros id [_ X]. exact X.
  - rewrite <- (seq_length (length (v_factors g)) 0). apply NoDup_incl_length; auto. intros id Hid. rewrite Forall_forall in R7. destruct (R7 id Hid). apply in_seq. lia.
Qed.

Theorem fast_ok : forall fuel, length (v_factors g) * length (v_factors g) + 1 <= fuel ->
  exists b, fastHeuristic T OP ACC zero g fuel s p = Ret b /\ sound_bound T ok ACC g P R p b.
Proof.
  intros fuel HF. unfold fastHeuristic. destruct ST as (S1 & S2 & S3) eqn:EST. rewrite S1. fold order. fold n. fold nodeLabel.
  rewrite (rd_nth _ order (length p) 0) by (rewrite olen; auto). cbn [bind]. fold next.
  destruct (foldM_ind _ _ (fh_factor T OP zero g s nodeLabel) Run (seq 0 (length (v_factors g))) _ init_ok) as (h & Eh & Hh).
  { intros k a t Hk HR. assert (Hk' : k < length (v_factors g)) by (pose proof (proj1 (nth_error_Some _ k) ltac:(rewrite Hk; discriminate)) as X; rewrite seq_length in X; auto).
    rewrite (nth_error_nth' _ 0) in Hk by (rewrite seq_length; auto). rewrite seq_nth in Hk by auto. injection Hk as <-. apply factor_ok; auto. }
  rewrite Eh. cbn [bind]. rewrite seq_length in Hh. destruct (run_to_loop h Hh) as (d & Ed & HI & HL).
  destruct (rd (fh_degree h) next) as [dn| | |] eqn:Edn; cbn [bind] in Ed |- *; try discriminate. rewrite Ed. cbn [bind].
  destruct (loop_ok _ _ eq_refl HI fuel) as (h' & E' & HI' & HE').
  { cbn [fh_list]. assert (length (fh_list h) * length (fh_list h) <= length (v_factors g) * length (v_factors g)) by (apply Nat.mul_le_mono; auto). lia. }
  rewrite E'. cbn [bind]. destruct HI' as (R1 & R2 & R3 & _ & _ & _ & _ & R8). rewrite HE' in *.
  set (f := fun y i => rv T zero (nth i (fh_energy h') []) (nth i y 0)).
  destruct (foldM_ind _ _ (fun r i => if i =? next then Ret r else row <- rd (fh_energy h') i ;; Ret (op (fold_left (fun m y => a_op ACC y m) row (a_neutral ACC)) r))
             (fun k r => ok r /\ forall y, agree y -> rel r (bigo T OP (filter (fun i => negb (i =? next)) (seq 0 k)) (f y))) (seq 0 n) one) as (r & Er & Kr & Hr).
  { split; [apply (sl_neutral _ _ _ SL)|]. intros y Hy. cbn. apply rel_refl, (sl_neutral _ _ _ SL). }
  { intros k a t Hk [Kt Ht]. assert (Hk' : k < n) by (pose proof (proj1 (nth_error_Some _ k) ltac:(rewrite Hk; discriminate)) as X; rewrite seq_length in X; auto).
    rewrite (nth_error_nth' _ 0) in Hk by (rewrite seq_length; auto). rewrite seq_nth in Hk by auto. injection Hk as <-. cbn [Nat.add].
    assert (KA : forall y, ok (bigo T OP (filter (fun i => negb (i =? next)) (seq 0 k)) (f y))).
    { intros y. apply (bigo_ok T ok OP ACC SL). intros i Hi. apply filter_In in Hi as [Hi _]. apply in_seq in Hi. apply rv_ok; auto. lia. }
    assert (SN : filter (fun i => negb (i =? next)) (seq 0 (S k)) = filter (fun i => negb (i =? next)) (seq 0 k) ++ (if k =? next then [] else [k])).
    { rewrite seq_S, filter_app. cbn [filter Nat.add]. destruct (k =? next); auto. }
    destruct (Nat.eqb_spec k next) as [Ek|Nk].
    - exists t. split; auto. split; auto. intros y Hy. rewrite SN. rewrite app_nil_r. auto.
    - rewrite (rd_nth _ _ k []) by (rewrite (proj1 R1); auto). cbn [bind]. fold (best T ACC (nth k (fh_energy h') [])). destruct (proj2 R1 k Hk') as [Nn On].
      destruct (best_spec T ok OP ACC SL _ Nn On) as (B1 & B2 & B3).
      eexists. split; [reflexivity|]. split; [apply (sl_op _ _ _ SL); auto|]. intros y Hy. rewrite SN.
      assert (Kf : ok (f y k)) by (apply rv_ok; auto).
      rewrite (bigo_app T ok OP ACC SL).
      + cbn [bigo fold_right]. rewrite (unit_r T ok OP ACC SL) by auto. fold (bigo T OP (filter (fun i => negb (i =? next)) (seq 0 k)) (f y)). rewrite (sl_comm _ _ _ SL (bigo T OP _ _)) by auto. apply rel_op; auto.
        split; [rewrite Forall_forall in B2; apply B2; apply rv_in; auto|]. intros E. destruct (nl k) as [a|] eqn:Ek.
        * pose proof (R3 k a Hk' Ek) as C. rewrite (C _ B3). symmetry. apply C. apply rv_in; auto.
        * exfalso. apply Nk. apply nl_single; auto.
      + intros i Hi. apply rv_ok; auto. apply in_app_or in Hi as [Hi|[<-|[]]]; auto. apply filter_In in Hi as [Hi _]. apply in_seq in Hi. lia. }
  rewrite Er. cbn [bind]. rewrite seq_length in Hr. pose proof next_lt as Hx. rewrite (rd_nth _ _ next []) by (rewrite (proj1 R1); auto). cbn [bind].
  assert (LN : length (nth next (fh_energy h') []) = lab next) by (apply R2; auto).
  eexists. split; [reflexivity|]. unfold sound_bound. rewrite map_length. split; [exact LN|]. intros j y d0 Hj HLy HPy.
  rewrite pre_snoc with (g := g) in HPy by auto. apply andb_true_iff in HPy as [HP1 HP2]. apply Nat.eqb_eq in HP2. fold order in HP2. fold next in HP2.
  assert (Hy : agree y) by (split; auto).
  rewrite (nth_indep _ d0 (op zero r)) by (rewrite map_length; auto). rewrite (map_nth (fun y => op y r)).
  assert (Ej : nth j (nth next (fh_energy h') []) zero = f y next) by (unfold f, rv; rewrite HP2; apply nth_indep; auto). rewrite Ej.
  assert (Kn : ok (f y next)) by (apply rv_ok; auto).
  assert (KA : ok (bigo T OP (filter (fun i => negb (i =? next)) (seq 0 n)) (f y))).
  { apply (bigo_ok T ok OP ACC SL). intros i Hi. apply filter_In in Hi as [Hi _]. apply in_seq in Hi. apply rv_ok; auto. lia. }
  assert (X : rel (op (f y next) r) (R y)).
  { apply (rel_trans _ (op (f y next) (bigo T OP (filter (fun i => negb (i =? next)) (seq 0 n)) (f y)))); try (apply (sl_op _ _ _ SL); auto).
    - apply all_ok; auto.
    - apply rel_op; auto. apply rel_refl; auto.
    - specialize (R8 y Hy). cbn [bigo fold_right] in R8. rewrite (unit_r T ok OP ACC SL) in R8 by (apply EV_ok; auto).
      replace (op (f y next) (bigo T OP (filter (fun i => negb (i =? next)) (seq 0 n)) (f y))) with (EV (fh_energy h') y); auto.
      unfold EV. fold (f y). change (op (f y next) (bigo T OP (filter (fun i => negb (i =? next)) (seq 0 n)) (f y))) with (bigo T OP (next :: filter (fun i => negb (i =? next)) (seq 0 n)) (f y)).
      apply (bigo_perm T ok OP ACC SL).
      + apply NoDup_Permutation; [apply seq_NoDup| |].
        * constructor; [rewrite filter_In, Nat.eqb_refl; intros [_ X]; discriminate|]. apply NoDup_filter, seq_NoDup.
        * intros i. cbn [In]. rewrite filter_In, in_seq, negb_true_iff, Nat.eqb_neq. destruct (Nat.eq_dec i next); [subst; split; [auto|intros _; lia]|]. split; [intros; right; split; auto|intros [?|[? ?]]; [congruence|auto]].
      + intros i Hi. apply in_seq in Hi. apply rv_ok; auto. lia. }
  split; [apply (sl_op _ _ _ SL); auto|]. exact X.
Qed.
End Fast.
