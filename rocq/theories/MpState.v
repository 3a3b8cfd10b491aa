(** The state of message passing: every operation keeps its shape, and what one message is. *)
From Coq Require Import Sorted Permutation.
From Verif Require Import Base Values GmView GmViewSpec ShapeSpec ShapeProofs FactorOpsSpec FactorOpsProofs FactorGraphModel FactorGraphSpec FactorGraphProofs MpModel MpSpec MpSum.

Lemma foldM_pure : forall A S (f : S -> A -> outcome S) (h : S -> A -> S) (I : S -> Prop) l s, I s ->
  (forall s a, I s -> In a l -> f s a = Ret (h s a) /\ I (h s a)) -> foldM f l s = Ret (fold_left h l s) /\ I (fold_left h l s).
Proof.
  intros A S f h I. induction l as [|a l IH]; intros s Hs H; cbn [foldM fold_left]; auto. destruct (H s a Hs (or_introl eq_refl)) as [E1 E2].
  rewrite E1. cbn [bind]. apply IH; auto. intros s' a' Hs' Ha'. apply H; auto. right. auto.
Qed.
Lemma foldM_inv : forall A S (f : S -> A -> outcome S) (I : S -> Prop) l s, I s ->
  (forall s a, I s -> In a l -> exists s', f s a = Ret s' /\ I s') -> exists s', foldM f l s = Ret s' /\ I s'.
Proof.
  intros A S f I. induction l as [|a l IH]; intros s Hs H; cbn [foldM]; eauto. destruct (H s a Hs (or_introl eq_refl)) as (s' & E1 & E2).
  rewrite E1. cbn [bind]. apply IH; auto. intros s'' a' Hs' Ha'. apply H; auto. right. auto.
Qed.
Lemma nth_map_in : forall A B (f : A -> B) l i d d', i < length l -> nth i (map f l) d' = f (nth i l d).
Proof. intros. rewrite nth_indep with (d' := f d) by (rewrite map_length; auto). apply map_nth. Qed.
Lemma map_seq_nth : forall A (l : list A) d, map (fun i => nth i l d) (seq 0 (length l)) = l.
Proof.
  intros A l d. assert (G : forall p, map (fun i => nth i (p ++ l) d) (seq (length p) (length l)) = l); [|apply (G [])].
  induction l as [|a l IH]; intros p; cbn [length seq map]; auto. f_equal; [rewrite app_nth2, Nat.sub_diag by lia; auto|].
  specialize (IH (p ++ [a])). rewrite app_length, Nat.add_1_r in IH. rewrite <- app_assoc in IH. exact IH.
Qed.

(** The place of an entry in a list. *)
Fixpoint pos (row : list nat) (y : nat) : nat :=
  match row with
  | [] => 0
  | x :: row => if x =? y then 0 else S (pos row y)
  end.
Lemma pos_in : forall row y, In y row -> nth_error row (pos row y) = Some y.
Proof. induction row as [|x row IH]; intros y H; [destruct H|]. cbn [pos]. destruct (Nat.eqb_spec x y) as [->|]; auto. apply IH. destruct H; congruence. Qed.
Lemma pos_lt : forall row y, In y row -> pos row y < length row.
Proof. intros row y H. apply nth_error_Some. rewrite pos_in by auto. discriminate. Qed.
Lemma pos_nth : forall row i y, NoDup row -> nth_error row i = Some y -> pos row y = i.
Proof.
  intros row i y N H. assert (L : pos row y < length row) by (apply pos_lt; eapply nth_error_In; eauto).
  apply (proj1 (NoDup_nth_error row) N); auto. rewrite pos_in by (eapply nth_error_In; eauto). auto.
Qed.
Lemma buffer_number_pos : forall row y k, In y row -> buffer_number row y k = Some (k + pos row y).
Proof.
  induction row as [|x row IH]; intros y k H; [destruct H|]. cbn [buffer_number pos]. destruct (Nat.eqb_spec x y) as [->|N]; [f_equal; lia|].
  rewrite IH by (destruct H; congruence). f_equal. lia.
Qed.
Lemma others_filter : forall row i y, NoDup row -> nth_error row i = Some y ->
  map (nth_error row) (others (length row) i) = map Some (filter (fun z => negb (z =? y)) row).
Proof.
  intros row i y N H. assert (L : i < length row) by (apply nth_error_Some; congruence).
  destruct (nth_error_split _ _ H) as (l1 & l2 & -> & E). subst i. apply NoDup_remove in N. destruct N as [N NI]. rewrite in_app_iff in NI.
  rewrite filter_app. cbn [filter]. rewrite Nat.eqb_refl. cbn [negb].
  assert (FA : forall l, (forall z, In z l -> z <> y) -> filter (fun z => negb (z =? y)) l = l).
  { induction l as [|z l IH]; intros K; auto. cbn [filter]. rewrite (proj2 (Nat.eqb_neq z y)) by (apply K; left; auto). cbn [negb]. f_equal. apply IH. intros; apply K; right; auto. }
  rewrite !FA by (intros z Hz ->; tauto). unfold others. rewrite !map_app. f_equal.
  - transitivity (map (fun i => Some (nth i l1 0)) (seq 0 (length l1))).
    + apply map_ext_in. intros k Hk. apply in_seq in Hk. rewrite nth_error_app1 by lia. apply nth_error_nth'. lia.
    + rewrite <- (map_map (fun i => nth i l1 0) Some). rewrite map_seq_nth. auto.
  - rewrite app_length. cbn [length]. replace (length l1 + S (length l2) - S (length l1)) with (length l2) by lia.
    transitivity (map (fun i => Some (nth i l2 0)) (seq 0 (length l2))).
    + assert (G : forall m s, s + m <= length l2 -> map (nth_error (l1 ++ y :: l2)) (seq (S (length l1) + s) m) = map (fun i => Some (nth i l2 0)) (seq s m)).
      { clear. induction m as [|m IH]; intros s Hs; cbn [seq map]; auto. f_equal.
        - rewrite nth_error_app2 by lia. replace (S (length l1) + s - length l1) with (S s) by lia. cbn [nth_error]. apply nth_error_nth'. lia.
        - rewrite <- (IH (S s)) by lia. f_equal. f_equal. lia. }
      specialize (G (length l2) 0). rewrite Nat.add_0_r in G. apply G. lia.
    + rewrite <- (map_map (fun i => nth i l2 0) Some). rewrite map_seq_nth. auto.
Qed.
Lemma all_places : forall (row : list nat), map (nth_error row) (seq 0 (length row)) = map Some row.
Proof.
  intros row. transitivity (map Some (map (fun i => nth i row 0) (seq 0 (length row)))); [|rewrite map_seq_nth; auto]. rewrite map_map. apply map_ext_in. intros i Hi. apply in_seq in Hi. apply nth_error_nth'. lia.
Qed.

(** Tables with one row of buffers for each of [N] objects. *)
Section Table.
Context {B : Type}.
Variable d : B.
Variable N : nat.
Variable rows : nat -> list nat.
Hypothesis ND : forall x, x < N -> NoDup (rows x).
Definition shaped (t : list (list B)) : Prop := length t = N /\ forall x, x < N -> length (nth x t []) = length (rows x).
Definition get (t : list (list B)) (x y : nat) : B := nth (pos (rows x) y) (nth x t []) d.
Lemma rd_row : forall t x, shaped t -> x < N -> rd t x = Ret (map (get t x) (rows x)).
Proof.
  intros t x [L R] H. rewrite (rd_nth _ t x []) by lia. f_equal. specialize (R x H). specialize (ND x H). unfold get. set (row := nth x t []) in *. clearbody row. clear - R ND.
  rewrite <- (map_seq_nth _ row d) at 1. rewrite R. rewrite <- (map_seq_nth _ (rows x) 0) at 2. rewrite map_map. apply map_ext_in. intros i Hi. apply in_seq in Hi.
  rewrite (pos_nth (rows x) i); auto. apply nth_error_nth'. lia.
Qed.
Lemma nth_row : forall t x, shaped t -> x < N -> nth x t [] = map (get t x) (rows x).
Proof. intros t x S H. pose proof (rd_row t x S H) as E. destruct S as [L _]. rewrite (rd_nth _ t x []) in E by lia. congruence. Qed.
Lemma rd2_get : forall t x i y, shaped t -> x < N -> nth_error (rows x) i = Some y -> rd2 t x i = Ret (get t x y).
Proof.
  intros t x i y S H E. unfold rd2. rewrite rd_row by auto. cbn [bind]. unfold rd. rewrite nth_error_map, E. reflexivity.
Qed.
Lemma wr2_get : forall t x i y b, shaped t -> x < N -> nth_error (rows x) i = Some y ->
  exists t', wr2 t x i b = Ret t' /\ shaped t' /\ get t' x y = b /\
    forall x' y', x' < N -> In y' (rows x') -> (x', y') <> (x, y) -> get t' x' y' = get t x' y'.
Proof.
  intros t x i y b [L R] H E. unfold wr2. rewrite (rd_nth _ t x []) by lia. cbn [bind].
  assert (Li : i < length (rows x)) by (apply nth_error_Some; congruence).
  rewrite wr_Ret by (rewrite R; auto). cbn [bind]. rewrite wr_Ret by lia. eexists. split; [reflexivity|]. pose proof (pos_nth _ _ _ (ND x H) E) as P. split; [split|split].
  - rewrite length_upd. auto.
  - intros x' H'. destruct (Nat.eq_dec x x') as [<-|]; [rewrite nth_upd_eq by lia; rewrite length_upd; auto|rewrite nth_upd_neq by auto; auto].
  - unfold get. rewrite nth_upd_eq by lia. rewrite P. apply nth_upd_eq. rewrite R; auto.
  - intros x' y' H' I' NE. unfold get. destruct (Nat.eq_dec x x') as [<-|]; [rewrite nth_upd_eq by lia|rewrite nth_upd_neq by auto; auto].
    apply nth_upd_neq. intros K. apply NE. f_equal. pose proof (pos_in _ _ I') as Q. rewrite <- K in Q. congruence.
Qed.
End Table.

Section State.
Variable T : Type.
Variable OP : oper T.
Variable ACC : accum T.
Variable mult : bool.
Variable small : T -> bool.
Variable wmean : T -> T -> T -> T.
Variable nonzero : T -> bool.
Variable g : gmv T.
Hypothesis WF : wf_gmv g.
Notation n := (length (v_labels g)).
Notation m := (length (v_factors g)).
Notation nl := (labels_at g).
Notation one := (o_neutral OP).
Notation op := (o_op OP).
Notation ac := (a_op ACC).
Notation facs := (facs_of T g).
Notation normalize := (normalize T OP ACC mult small).
Notation vhull_propagate := (vhull_propagate T OP ACC mult small wmean nonzero).
Notation fhull_propagate := (fhull_propagate T OP ACC mult small wmean nonzero g).

Definition fac (f : nat) : list nat * (list nat -> T) := nth f (v_factors g) ([], fun _ => one).
Definition vars (f : nat) : list nat := fst (fac f).
Definition fval (f : nat) (x : nat -> nat) : T := snd (fac f) (map x (vars f)).
Lemma fac_nth : forall f, f < m -> nth_error (v_factors g) f = Some (fac f).
Proof. intros. apply nth_error_nth'. auto. Qed.
Lemma vars_wf : forall f, StronglySorted lt (vars f) /\ forall v, In v (vars f) -> v < n.
Proof.
  intros f. unfold vars, fac. destruct (Nat.lt_ge_cases f m) as [H|H].
  - destruct WF as [W _]. rewrite Forall_forall in W. destruct (W (nth f (v_factors g) ([], fun _ => one))) as [W1 W2]; [apply nth_In; auto|]. split; auto. apply Forall_forall. auto.
  - rewrite nth_overflow by auto. split; [constructor|intros v []].
Qed.
Lemma vars_lt : forall f v, In v (vars f) -> v < n.
Proof. intros f. apply (vars_wf f). Qed.
Lemma vars_nodup : forall f, NoDup (vars f).
Proof. intros f. apply sorted_NoDup. apply (vars_wf f). Qed.
Lemma facs_in : forall v f, In f (facs v) <-> f < m /\ In v (vars f).
Proof.
  intros v f. unfold facs_of, v_adj. rewrite filter_In, in_seq. split.
  - intros ((_ & H) & E). split; auto. rewrite (fac_nth f) in E by auto. unfold vars. destruct (fac f) as [vis h]. apply existsb_exists in E. destruct E as (u & Hu & Eu). apply Nat.eqb_eq in Eu. subst. auto.
  - intros [H E]. split; [lia|]. rewrite (fac_nth f) by auto. unfold vars in E. destruct (fac f) as [vis h]. apply existsb_exists. exists v. split; auto. apply Nat.eqb_refl.
Qed.
Lemma facs_nodup : forall v, NoDup (facs v).
Proof. intros v. apply NoDup_filter. apply seq_NoDup. Qed.
Lemma var_has : forall f v, f < m -> In v (vars f) -> In f (facs v).
Proof. intros. apply facs_in. auto. Qed.
Lemma rd_fac : forall f, f < m -> rd (v_factors g) f = Ret (fac f).
Proof. intros. apply rd_Ret. apply fac_nth. auto. Qed.
Lemma rd_labels : forall v, v < n -> rd (v_labels g) v = Ret (nl v).
Proof. intros. unfold labels_at. apply rd_nth. auto. Qed.

Definition lens (b : mbuf T) (k : nat) : Prop := length (mb_1 b) = k /\ length (mb_2 b) = k.
Definition is_one (b : mbuf T) (k : nat) : Prop := mb_1 b = repeat one k /\ mb_2 b = repeat one k.
Lemma lens_current : forall b k, lens b k -> length (current b) = k.
Proof. intros b k [A B]. unfold current. destruct (mb_flag b); auto. Qed.
Lemma lens_old : forall b k, lens b k -> length (old b) = k.
Proof. intros b k [A B]. unfold old. destruct (mb_flag b); auto. Qed.
Lemma lens_toggle : forall b k, lens b k -> lens (toggle b) k.
Proof. intros b k [A B]. split; auto. Qed.
Lemma lens_put : forall b k a, lens b k -> length a = k -> lens (put b a) k.
Proof. intros b k a [A B] L. unfold put. destruct (mb_flag b); split; cbn [mb_1 mb_2]; auto. Qed.
Lemma current_put : forall (b : mbuf T) a, current (put b a) = a.
Proof. intros b a. unfold current, put. destruct (mb_flag b); auto. Qed.
Lemma is_one_current : forall b k, is_one b k -> current b = repeat one k.
Proof. intros b k [A B]. unfold current. destruct (mb_flag b); auto. Qed.
Lemma is_one_toggle : forall b k, is_one b k -> is_one (toggle b) k.
Proof. intros b k [A B]. split; auto. Qed.

(** The buffer of the message from factor f to variable v, and from variable v to factor f. *)
Definition bV (s : mp T) (v f : nat) : mbuf T := get buf0 facs (m_vin s) v f.
Definition bF (s : mp T) (f v : nat) : mbuf T := get buf0 vars (m_fin s) f v.
Definition leaf (v : nat) : Prop := length (facs v) < 2.
Record ok (s : mp T) : Prop := {
  ok_vin : shaped n facs (m_vin s);
  ok_fin : shaped m vars (m_fin s);
  ok_vout : shaped n facs (m_vout s);
  ok_fout : shaped m vars (m_fout s);
  ok_vptr : forall v f, v < n -> In f (facs v) -> get None facs (m_vout s) v f = Some (f, pos (vars f) v);
  ok_fptr : forall f v, f < m -> In v (vars f) -> get None vars (m_fout s) f v = Some (v, pos (facs v) f);
  ok_vlen : forall v f, v < n -> In f (facs v) -> lens (bV s v f) (nl v);
  ok_flen : forall f v, f < m -> In v (vars f) -> lens (bF s f v) (nl v);
  ok_leaf : forall f v, f < m -> In v (vars f) -> leaf v -> is_one (bF s f v) (nl v) }.
Lemma facs_nd : forall x, x < n -> NoDup (facs x).
Proof. intros. apply facs_nodup. Qed.
Lemma vars_nd : forall x, x < m -> NoDup (vars x).
Proof. intros. apply vars_nodup. Qed.

(** ** One message *)
Lemma mapM_places : forall A (F : nat -> outcome A) (G : nat -> A) k, (forall i, i < k -> F i = Ret (G i)) -> mapM F (seq 0 k) = Ret (map G (seq 0 k)).
Proof. intros A F G k H. apply mapM_Ret. intros i Hi. apply in_seq in Hi. apply H. lia. Qed.

Definition prod_at (G : nat -> mbuf T) (hs : list nat) (l : nat) : T := fold_left (fun o h => op (nth l (current (G h)) one) o) hs one.
Lemma operate_eq : forall row (G : nat -> mbuf T) js hs out, map (nth_error row) js = map Some hs ->
  (forall h, In h hs -> length (current (G h)) = length out) ->
  operate T OP (map G row) js out = Ret (map (prod_at G hs) (seq 0 (length out))).
Proof.
  intros row G js hs out E L. unfold operate, prod_at. set (k := length out) in *. clearbody k.
  assert (Q : forall o0, length o0 = k -> foldM (fun out j => b <- rd (map G row) j ;;
      mapM (fun n0 => x <- rd (current b) n0 ;; o <- rd out n0 ;; Ret (op x o)) (seq 0 (length out))) js o0 =
    Ret (map (fun l => fold_left (fun o h => op (nth l (current (G h)) one) o) hs (nth l o0 one)) (seq 0 k))).
  { revert hs E L. induction js as [|j js IH]; intros [|h hs] E L o0 H0; try discriminate; cbn [foldM fold_left].
    - f_equal. rewrite <- H0. symmetry. apply map_seq_nth.
    - cbn [map] in E. injection E as E1 E2. unfold rd at 1. rewrite nth_error_map, E1. cbn [option_map bind]. pose proof (L h (or_introl eq_refl)) as Lh.
      rewrite (mapM_places _ _ (fun l => op (nth l (current (G h)) one) (nth l o0 one))).
      2:{ intros i Hi. rewrite (rd_nth _ (current (G h)) i one) by lia. rewrite (rd_nth _ o0 i one) by lia. reflexivity. }
      cbn [bind]. rewrite (IH hs); auto; [|intros; apply L; right; auto|rewrite map_length, seq_length; auto].
      f_equal. apply map_ext_in. intros l Hl. apply in_seq in Hl. f_equal.
      rewrite (nth_map_in _ _ _ _ l 0) by (rewrite seq_length; lia). rewrite seq_nth by lia. reflexivity. }
  rewrite Q by apply repeat_length. f_equal. apply map_ext_in. intros l Hl. apply in_seq in Hl. f_equal. apply nth_repeat.
Qed.

(** A factor's value with messages. *)
Definition weigh (G : nat -> mbuf T) (us : list nat) (y : nat -> nat) (a : T) : T := fold_left (fun val u => op (nth (y u) (current (G u)) one) val) us a.
Lemma with_messages_eq : forall row (G : nat -> mbuf T) js us y a, map (nth_error row) js = map Some us ->
  (forall u, In u us -> y u < length (current (G u))) ->
  with_messages T OP (map G row) (map y row) js a = Ret (weigh G us y a).
Proof.
  intros row G js us y a E L. unfold with_messages, weigh. revert us E L a. induction js as [|j js IH]; intros [|u us] E L a; try discriminate; cbn [foldM fold_left]; auto.
  cbn [map] in E. injection E as E1 E2. unfold rd at 1. rewrite nth_error_map, E1. cbn [option_map bind]. unfold rd at 1. rewrite nth_error_map, E1. cbn [option_map bind].
  rewrite (rd_nth _ _ _ one) by (apply L; left; auto). cbn [bind]. apply IH; auto. intros; apply L; right; auto.
Qed.

Definition zero_x : nat -> nat := fun _ => 0.
Definition lab_at (f : nat) (c : list nat) : nat -> nat := override zero_x (vars f) c.
Lemma lab_map : forall f c, length c = length (vars f) -> map (lab_at f c) (vars f) = c.
Proof. intros. apply override_in; auto. apply vars_nodup. Qed.
Lemma lab_lt : forall f c u, in_shape (map nl (vars f)) c -> In u (vars f) -> lab_at f c u < nl u.
Proof. intros f c u H I. apply (override_legal nl (vars f) c zero_x (vars_nodup f) H u I). Qed.

(** Accumulation into the places of an array. *)
Definition acc_step (pl : list nat -> nat) (W : list nat -> T) (out : list T) (c : list nat) : list T :=
  upd out (pl c) (ac (W c) (nth (pl c) out one)).
Lemma acc_step_length : forall pl W cs out, length (fold_left (acc_step pl W) cs out) = length out.
Proof. intros pl W. induction cs as [|c cs IH]; intros out; cbn [fold_left]; auto. rewrite IH. apply length_upd. Qed.
Lemma acc_step_nth : forall pl W cs out l, l < length out ->
  nth l (fold_left (acc_step pl W) cs out) one = fold_left (fun r v => ac v r) (map W (filter (fun c => pl c =? l) cs)) (nth l out one).
Proof.
  intros pl W. induction cs as [|c cs IH]; intros out l H; cbn [fold_left filter map]; auto. rewrite IH by (unfold acc_step; rewrite length_upd; auto).
  unfold acc_step. destruct (Nat.eqb_spec (pl c) l) as [->|N]; cbn [map fold_left].
  - rewrite nth_upd_eq by auto. auto.
  - rewrite nth_upd_neq by auto. auto.
Qed.
Lemma accumulate_at_eq : forall out l v, l < length out -> accumulate_at T ACC out l v = Ret (upd out l (ac v (nth l out one))).
Proof. intros out l v H. unfold accumulate_at. rewrite (rd_nth _ out l one) by auto. cbn [bind]. apply wr_Ret. auto. Qed.

Notation W2 f v G := (fun c => weigh G (filter (fun z => negb (z =? v)) (vars f)) (lab_at f c) (snd (fac f) c)) (only parsing).
Definition is_perm (cs : list (list nat)) (vs : list nat) : Prop := NoDup cs /\ forall c, In c cs <-> in_shape (map nl vs) c.

Lemma fold_wr_const : forall (c : T) k out, k <= length out -> foldM (fun out i => wr out i c) (seq 0 k) out = Ret (repeat c k ++ skipn k out).
Proof.
  intros c k out H. induction k as [|k IH]; [cbn; auto|]. rewrite seq_S, foldM_app, IH by lia. cbn [Nat.add foldM bind].
  rewrite wr_Ret by (rewrite app_length, repeat_length, skipn_length; lia). cbn [bind]. f_equal.
  destruct (skipn_split _ out k ltac:(lia)) as [w E]. rewrite E.
  assert (U : forall p (a b : T) q, upd (p ++ a :: q) (length p) b = p ++ b :: q). { clear. induction p as [|h p IH]; intros; cbn [app length upd]; auto. f_equal. apply IH. }
  pose proof (U (repeat c k) w c (skipn (S k) out)) as U1. rewrite repeat_length in U1. rewrite U1.
  assert (R : repeat c (S k) = repeat c k ++ [c]) by (clear; induction k as [|k IH]; cbn [repeat app] in *; auto; f_equal; auto). rewrite R, <- app_assoc. reflexivity.
Qed.

Lemma operateF_eq : forall f i v (G : nat -> mbuf T) out, f < m -> nth_error (vars f) i = Some v -> length out = nl v ->
  (forall u, In u (vars f) -> length (current (G u)) = nl u) ->
  exists cs, is_perm cs (vars f) /\
    operateF T OP ACC g (fac f) (map G (vars f)) i out = Ret (fold_left (acc_step (fun c => nth i c 0) (W2 f v G)) cs (repeat (a_neutral ACC) (nl v))).
Proof.
  intros f i v G out Hf Ev Lo LG. unfold operateF. change (fshape T g (fac f)) with (map nl (vars f)). rewrite map_length.
  assert (Li : i < length (vars f)) by (apply nth_error_Some; congruence).
  assert (PS : positive (map nl (vars f))).
  { destruct WF as [_ P]. apply Forall_forall. intros k Hk. apply in_map_iff in Hk. destruct Hk as (u & <- & Hu). apply vars_lt in Hu. unfold positive in P. rewrite Forall_forall in P. apply P. apply nth_In. auto. }
  assert (Nv : nth i (map nl (vars f)) 0 = nl v). { rewrite (nth_map_in _ _ _ _ i 0) by auto. f_equal. apply nth_error_nth. auto. }
  destruct (Nat.eqb_spec (length (vars f)) 2) as [E2|N2].
  - pose proof (vars_nodup f) as ND. pose proof (fun c u => lab_lt f c u) as LAB. unfold lab_at in *. destruct (vars f) as [|a [|b [|]]] eqn:EV; try discriminate. cbn [map nth] in *.
    assert (Nab : a <> b). { inversion ND as [|? ? ND1 ND2]; subst. intros ->. apply ND1. left. auto. }
    exists (flat_map (fun c0 => map (fun c1 => [c0; c1]) (seq 0 (nl b))) (seq 0 (nl a))). split; [split|].
    + pose proof (NoDup_flat_cons (seq 0 (nl a)) (map (fun c1 => [c1]) (seq 0 (nl b))) (seq_NoDup _ _)) as Q. rewrite flat_map_concat_map in Q |- *.
      rewrite (map_ext (fun c0 => map (fun c1 => [c0; c1]) (seq 0 (nl b))) (fun l => map (cons l) (map (fun c1 => [c1]) (seq 0 (nl b))))) by (intros c0; rewrite map_map; reflexivity).
      apply Q. apply FinFun.Injective_map_NoDup; [intros p q E; congruence|apply seq_NoDup].
    + intros c. rewrite in_flat_map. split.
      * intros (c0 & H0 & Hc). apply in_map_iff in Hc. destruct Hc as (c1 & <- & H1). apply in_seq in H0, H1. repeat constructor; lia.
      * intros H. inversion H as [|c0 s0 c' sh H0 H']; subst. inversion H' as [|c1 s1 c'' sh' H1 H'']; subst. inversion H''; subst. exists c0. split; [apply in_seq; lia|]. apply in_map_iff. exists c1. split; auto. apply in_seq. lia.
    + rewrite Lo.
      set (W := fun c => weigh G (filter (fun z => negb (z =? v)) [a; b]) (override zero_x [a; b] c) (snd (fac f) c)).
      match goal with |- foldM ?F ?l ?o = _ => assert (Q : forall l0 o0, (forall c0, In c0 l0 -> c0 < nl a) -> length o0 = nl v ->
        foldM F l0 o0 = Ret (fold_left (acc_step (fun c => nth i c 0) W) (flat_map (fun c0 => map (fun c1 => [c0; c1]) (seq 0 (nl b))) l0) o0)) end.
      2:{ apply Q; [intros c0 H; apply in_seq in H; lia|apply repeat_length]. }
      induction l0 as [|c0 l0 IH]; intros o0 Hl Ho; cbn [foldM flat_map]; auto. rewrite fold_left_app.
      match goal with |- bind (foldM ?F ?l ?o) _ = _ => assert (Q2 : forall l1 o1, (forall c1, In c1 l1 -> c1 < nl b) -> length o1 = nl v ->
        foldM F l1 o1 = Ret (fold_left (acc_step (fun c => nth i c 0) W) (map (fun c1 => [c0; c1]) l1) o1)); [set (F2 := F)|] end.
      { pose proof (Hl c0 (or_introl eq_refl)) as H0. induction l1 as [|c1 l1 IH1]; intros o1 Hl1 Ho1; cbn [foldM map fold_left]; auto. pose proof (Hl1 c1 (or_introl eq_refl)) as H1.
        match goal with |- bind (?X o1 c1) _ = _ => assert (St : X o1 c1 = Ret (acc_step (fun c => nth i c 0) W o1 [c0; c1])) end.
        { clear IH1 IH. destruct i as [|[|]]; cbn [nth_error length] in *; [injection Ev as <-|injection Ev as <-|lia]; unfold F2; cbn [Nat.eqb rd nth_error bind].
          - rewrite (rd_nth _ _ _ one) by (rewrite LG by (right; left; auto); auto). cbn [bind]. rewrite accumulate_at_eq by lia. f_equal. unfold acc_step. cbn [nth]. f_equal. f_equal.
            unfold W, weigh. cbn [filter]. rewrite Nat.eqb_refl, (proj2 (Nat.eqb_neq b a)) by auto. cbn [negb fold_left override]. rewrite (proj2 (Nat.eqb_neq b a)), Nat.eqb_refl by auto. auto.
          - rewrite (rd_nth _ _ _ one) by (rewrite LG by (left; auto); auto). cbn [bind]. rewrite accumulate_at_eq by lia. f_equal. unfold acc_step. cbn [nth]. f_equal. f_equal.
            unfold W, weigh. cbn [filter]. rewrite Nat.eqb_refl, (proj2 (Nat.eqb_neq a b)) by auto. cbn [negb fold_left override]. rewrite Nat.eqb_refl. auto. }
        rewrite St. cbn [bind]. apply IH1; [intros; apply Hl1; right; auto|]. unfold acc_step. rewrite length_upd. auto. }
      rewrite Q2; auto; [|intros c1 H; apply in_seq in H; lia]. cbn [bind]. rewrite IH; auto; [intros; apply Hl; right; auto|]. rewrite acc_step_length. auto.
  - exists (tuples nl (vars f)). split; [split|].
    + apply tuples_nodup. { destruct WF; auto. } intros u Hu. eapply vars_lt; eauto.
    + apply tuples_in. { destruct WF; auto. } intros u Hu. eapply vars_lt; eauto.
    + rewrite (rd_nth _ _ i 0) by (rewrite map_length; auto). cbn [bind]. rewrite Nv. rewrite fold_wr_const by lia. cbn [bind]. rewrite skipn_all2 by lia. rewrite app_nil_r. rewrite map_length.
      unfold tuples. assert (Q : forall l o, length o = nl v -> foldM (fun out k => let c := coord_of (map nl (vars f)) k in
          value <- with_messages T OP (map G (vars f)) c (others (length (vars f)) i) (snd (fac f) c) ;; l <- rd c i ;; accumulate_at T ACC out l value) l o =
          Ret (fold_left (acc_step (fun c => nth i c 0) (W2 f v G)) (map (coord_of (map nl (vars f))) l) o)).
      { induction l as [|k l IH]; intros o Ho; cbn [foldM map fold_left]; auto. cbv zeta. set (c := coord_of (map nl (vars f)) k).
        assert (Cs : in_shape (map nl (vars f)) c) by (apply coord_of_in_shape; auto). assert (Lc : length c = length (vars f)) by (unfold c; rewrite coord_of_length, map_length; auto).
        rewrite <- (lab_map f c Lc) at 1. rewrite (with_messages_eq _ _ _ (filter (fun z => negb (z =? v)) (vars f))).
        - cbn [bind]. rewrite (rd_nth _ c i 0) by lia. cbn [bind].
          assert (Lt : nth i c 0 < nl v).
          { rewrite <- (lab_map f c Lc). rewrite (nth_map_in _ _ _ _ i 0) by auto. rewrite (nth_error_nth _ _ _ Ev). apply lab_lt; auto. eapply nth_error_In; eauto. }
          rewrite accumulate_at_eq by lia. cbn [bind]. apply IH. unfold acc_step. rewrite length_upd. auto.
        - apply others_filter; auto. apply vars_nodup.
        - intros u Hu. apply filter_In in Hu. destruct Hu as [Hu _]. rewrite LG by auto. apply lab_lt; auto. }
      apply Q. apply repeat_length.
Qed.

Lemma operateF2_eq : forall f (G : nat -> mbuf T), f < m -> (forall u, In u (vars f) -> length (current (G u)) = nl u) ->
  operateF2 T OP g (fac f) (map G (vars f)) = Ret (map (fun c => weigh G (vars f) (lab_at f c) (snd (fac f) c)) (tuples nl (vars f))).
Proof.
  intros f G Hf LG. unfold operateF2. change (fshape T g (fac f)) with (map nl (vars f)). rewrite map_length.
  assert (PS : positive (map nl (vars f))).
  { destruct WF as [_ P]. apply Forall_forall. intros k Hk. apply in_map_iff in Hk. destruct Hk as (u & <- & Hu). apply vars_lt in Hu. unfold positive in P. rewrite Forall_forall in P. apply P. apply nth_In. auto. }
  unfold tuples. rewrite map_map. apply mapM_Ret. intros k _. cbv zeta. set (c := coord_of (map nl (vars f)) k).
  assert (Lc : length c = length (vars f)) by (unfold c; rewrite coord_of_length, map_length; auto).
  rewrite <- (lab_map f c Lc) at 1. apply with_messages_eq; [apply all_places|]. intros u Hu. rewrite LG by auto. apply lab_lt; auto. apply coord_of_in_shape. auto.
Qed.

(** Damping and normalization. *)
Lemma normalize_length : forall a, length (normalize a) = length a.
Proof. intros a. unfold MpModel.normalize. destruct (mult && small _); auto. apply map_length. Qed.
Lemma finish_ok : forall b k a damping un, lens b k -> length a = k -> exists a', finish T OP ACC mult small wmean nonzero b a damping un = Ret (put b a') /\ length a' = k /\
  (nonzero damping = false -> a' = if un then normalize a else a).
Proof.
  intros b k a damping un L La. unfold finish. destruct (nonzero damping).
  - rewrite (mapM_places _ _ (fun l => wmean damping (nth l a one) (nth l (old b) one))).
    2:{ intros i Hi. rewrite (rd_nth _ a i one) by auto. rewrite (rd_nth _ (old b) i one) by (rewrite (lens_old b k) by auto; lia). reflexivity. }
    cbn [bind]. eexists. split; [reflexivity|]. split; [|discriminate]. destruct un; [rewrite normalize_length|]; rewrite map_length, seq_length; auto.
  - cbn [bind]. eexists. split; [reflexivity|]. split; [|auto]. destruct un; [rewrite normalize_length|]; auto.
Qed.

Definition same_params (s s' : mp T) : Prop := m_acyclic s' = m_acyclic s /\ m_norm s' = m_norm s.
(** Only the message from v to f has changed. *)
Definition only_F (s s' : mp T) (f v : nat) : Prop :=
  m_vin s' = m_vin s /\ forall f' v', f' < m -> In v' (vars f') -> (f', v') <> (f, v) -> bF s' f' v' = bF s f' v'.
Definition only_V (s s' : mp T) (v f : nat) : Prop :=
  m_fin s' = m_fin s /\ forall v' f', v' < n -> In f' (facs v') -> (v', f') <> (v, f) -> bV s' v' f' = bV s v' f'.

Lemma vprop_ok : forall s v i f damping un, ok s -> v < n -> nth_error (facs v) i = Some f ->
  exists s', vhull_propagate v i damping un s = Ret s' /\ ok s' /\ same_params s s' /\ only_F s s' f v /\
    (nonzero damping = false -> un = false -> current (bF s' f v) = map (prod_at (bV s v) (filter (fun z => negb (z =? f)) (facs v))) (seq 0 (nl v))).
Proof.
  intros s v i f damping un K Hv Ef. unfold MpModel.vhull_propagate. assert (If : In f (facs v)) by (eapply nth_error_In; eauto).
  pose proof (proj1 (facs_in v f) If) as [Hf Iv].
  rewrite (rd2_get None n facs facs_nd _ _ _ _ (ok_vout _ K) Hv Ef), (ok_vptr _ K) by auto. cbn [bind].
  pose proof (pos_in _ _ Iv) as Ev. rewrite (rd2_get buf0 m vars vars_nd _ _ _ _ (ok_fin _ K) Hf Ev). cbn [bind]. fold (bF s f v). cbv zeta.
  rewrite (rd_row buf0 n facs facs_nd _ _ (ok_vin _ K) Hv). cbn [bind]. change (get buf0 facs (m_vin s) v) with (bV s v). rewrite map_length.
  pose proof (ok_flen _ K f v Hf Iv) as LB.
  assert (Q : exists b', (if length (facs v) <? 2 then Ret (toggle (bF s f v)) else
      a <- operate T OP (map (bV s v) (facs v)) (others (length (facs v)) i) (current (toggle (bF s f v))) ;; finish T OP ACC mult small wmean nonzero (toggle (bF s f v)) a damping un) = Ret b' /\
      lens b' (nl v) /\ (leaf v -> is_one b' (nl v)) /\
      (nonzero damping = false -> un = false -> current b' = map (prod_at (bV s v) (filter (fun z => negb (z =? f)) (facs v))) (seq 0 (nl v)))).
  { destruct (Nat.ltb_spec (length (facs v)) 2) as [L2|L2].
    - eexists. split; [reflexivity|]. split; [apply lens_toggle; auto|]. pose proof (ok_leaf _ K f v Hf Iv L2) as LO. split; [intros; apply is_one_toggle; auto|].
      intros _ _. rewrite (is_one_current _ (nl v)) by (apply is_one_toggle; auto).
      destruct (facs v) as [|h [|]]; [destruct If| |cbn [length] in L2; lia]. destruct If as [->|[]]. cbn [filter]. rewrite Nat.eqb_refl. cbn [negb]. unfold prod_at. cbn [fold_left].
      clear. generalize 0. generalize (nl v). intros k. induction k as [|k IH]; intros a; cbn [repeat seq map]; auto. f_equal. apply IH.
    - rewrite (operate_eq _ _ _ (filter (fun z => negb (z =? f)) (facs v))); [|apply others_filter; auto; apply facs_nodup|].
      2:{ intros h Hh. apply filter_In in Hh. destruct Hh as [Hh _]. rewrite (lens_current _ (nl v)) by (apply ok_vlen; auto). rewrite (lens_current _ (nl v)); auto. }
      cbn [bind]. rewrite (lens_current (toggle (bF s f v)) (nl v)) by (apply lens_toggle; auto).
      destruct (finish_ok (toggle (bF s f v)) (nl v) (map (prod_at (bV s v) (filter (fun z => negb (z =? f)) (facs v))) (seq 0 (nl v))) damping un) as (a' & E' & L' & V').
      { apply lens_toggle; auto. } { rewrite map_length, seq_length. auto. }
      rewrite E'. eexists. split; [reflexivity|]. split; [apply lens_put; auto; apply lens_toggle; auto|]. split; [unfold leaf; lia|].
      intros D U. rewrite current_put. subst un. auto. }
  destruct Q as (b' & -> & LB' & LO' & V'). cbn [bind].
  destruct (wr2_get buf0 m vars vars_nd (m_fin s) f (pos (vars f) v) v b' (ok_fin _ K) Hf Ev) as (t' & Et & St & Gt & Ot). rewrite Et. cbn [bind].
  eexists. split; [reflexivity|].
  assert (OF : only_F s (mkMp (m_vin s) (m_vout s) t' (m_fout s) (m_acyclic s) (m_norm s)) f v). { split; auto. }
  split; [|split; [split; auto|split; [auto|]]].
  - destruct K. constructor; auto.
    + intros f' v' Hf' Iv'. unfold bF in *. cbn [m_fin]. destruct (Nat.eq_dec f' f) as [->|]; [destruct (Nat.eq_dec v' v) as [->|]|]; [rewrite Gt; auto| |]; rewrite Ot by (auto; congruence); auto.
    + intros f' v' Hf' Iv' Lf. unfold bF in *. cbn [m_fin]. destruct (Nat.eq_dec f' f) as [->|]; [destruct (Nat.eq_dec v' v) as [->|]|]; [rewrite Gt; auto| |]; rewrite Ot by (auto; congruence); auto.
  - intros D U. unfold bF. cbn [m_fin]. rewrite Gt. auto.
Qed.

(** The message from a factor before normalization. *)
Definition fmessage (s : mp T) (f v : nat) (cs : list (list nat)) : list T :=
  fold_left (acc_step (fun c => nth (pos (vars f) v) c 0) (W2 f v (bF s f))) cs (repeat (a_neutral ACC) (nl v)).
Lemma fprop_ok : forall s f i v damping un, ok s -> f < m -> nth_error (vars f) i = Some v ->
  exists s', fhull_propagate f i damping un s = Ret s' /\ ok s' /\ same_params s s' /\ only_V s s' v f /\
    (nonzero damping = false -> exists cs, is_perm cs (vars f) /\ current (bV s' v f) = if un then normalize (fmessage s f v cs) else fmessage s f v cs).
Proof.
  intros s f i v damping un K Hf Ev. unfold MpModel.fhull_propagate. assert (Iv : In v (vars f)) by (eapply nth_error_In; eauto).
  assert (Hv : v < n) by (eapply vars_lt; eauto). assert (If : In f (facs v)) by (apply facs_in; auto). pose proof (pos_nth _ _ _ (vars_nodup f) Ev) as Pi.
  rewrite (rd2_get None m vars vars_nd _ _ _ _ (ok_fout _ K) Hf Ev), (ok_fptr _ K) by auto. cbn [bind].
  pose proof (pos_in _ _ If) as Ef. rewrite (rd2_get buf0 n facs facs_nd _ _ _ _ (ok_vin _ K) Hv Ef). cbn [bind]. fold (bV s v f). cbv zeta.
  rewrite rd_fac by auto. cbn [bind]. rewrite (rd_row buf0 m vars vars_nd _ _ (ok_fin _ K) Hf). cbn [bind]. change (get buf0 vars (m_fin s) f) with (bF s f).
  pose proof (ok_vlen _ K v f Hv If) as LB.
  destruct (operateF_eq f i v (bF s f) (current (toggle (bV s v f)))) as (cs & CP & EC); auto.
  { apply lens_current. apply lens_toggle. auto. } { intros u Hu. apply lens_current. apply ok_flen; auto. }
  rewrite EC. cbn [bind]. clear EC.
  match goal with |- context [finish _ _ _ _ _ _ _ _ ?a _ _] => destruct (finish_ok (toggle (bV s v f)) (nl v) a damping un) as (a' & E' & L' & V') end.
  { apply lens_toggle. auto. } { rewrite acc_step_length. apply repeat_length. }
  rewrite E'. cbn [bind].
  destruct (wr2_get buf0 n facs facs_nd (m_vin s) v (pos (facs v) f) f (put (toggle (bV s v f)) a') (ok_vin _ K) Hv Ef) as (t' & Et & St & Gt & Ot). rewrite Et. cbn [bind].
  eexists. split; [reflexivity|].
  split; [|split; [split; auto|split; [split; auto|]]].
  - destruct K. constructor; auto.
    intros v' f' Hv' If'. unfold bV in *. cbn [m_vin]. destruct (Nat.eq_dec v' v) as [->|]; [destruct (Nat.eq_dec f' f) as [->|]|]; [rewrite Gt; apply lens_put; auto; apply lens_toggle; auto| |]; rewrite Ot by (auto; congruence); auto.
  - intros D. exists cs. split; auto. unfold bV. cbn [m_vin]. rewrite Gt, current_put. rewrite (V' D). unfold fmessage. rewrite Pi. reflexivity.
Qed.

Lemma marginal_eq : forall s v, ok s -> v < n -> mp_marginal T OP ACC mult small g s v =
  Ret (let out := map (prod_at (bV s v) (facs v)) (seq 0 (nl v)) in if tri_bool (m_norm s) then normalize out else out).
Proof.
  intros s v K Hv. unfold mp_marginal. rewrite (rd_row buf0 n facs facs_nd _ _ (ok_vin _ K) Hv). cbn [bind]. rewrite rd_labels by auto. cbn [bind]. rewrite map_length.
  rewrite (operate_eq _ _ _ (facs v)); [|apply all_places|].
  - cbn [bind]. rewrite repeat_length. reflexivity.
  - intros h Hh. rewrite repeat_length. apply lens_current. apply (ok_vlen _ K v h Hv Hh).
Qed.
Lemma factorMarginal_eq : forall s f, ok s -> f < m -> mp_factorMarginal T OP ACC mult small g s f =
  Ret (let out := map (fun c => weigh (bF s f) (vars f) (lab_at f c) (snd (fac f) c)) (tuples nl (vars f)) in if tri_bool (m_norm s) then normalize out else out).
Proof.
  intros s f K Hf. unfold mp_factorMarginal. rewrite rd_fac by auto. cbn [bind]. rewrite (rd_row buf0 m vars vars_nd _ _ (ok_fin _ K) Hf). cbn [bind].
  rewrite operateF2_eq; auto. intros u Hu. apply lens_current. apply (ok_flen _ K f u Hf Hu).
Qed.

(** ** Construction and reset *)
Lemma arr_resize_length : forall (a : list T) k c, length (arr_resize a k c) = k.
Proof. intros. unfold arr_resize. rewrite app_length, firstn_length, repeat_length. lia. Qed.
Lemma arr_resize_repeat : forall j k (c : T), arr_resize (repeat c j) k c = repeat c k.
Proof.
  intros j k c. unfold arr_resize. rewrite repeat_length. destruct (Nat.le_ge_cases k j) as [H|H].
  - replace (k - j) with 0 by lia. cbn [repeat]. rewrite app_nil_r. replace j with (k + (j - k)) by lia. rewrite repeat_app, firstn_app, repeat_length, Nat.sub_diag. cbn [firstn]. rewrite app_nil_r.
    rewrite firstn_all2; auto. rewrite repeat_length. lia.
  - rewrite firstn_all2 by (rewrite repeat_length; lia). rewrite <- repeat_app. f_equal. lia.
Qed.
Lemma buf_assign_lens : forall b k c, 0 < k -> lens (buf_assign b k c) k.
Proof. intros b k c H. unfold buf_assign. destruct (Nat.eqb_spec k 0); [lia|]. split; cbn [mb_1 mb_2]; apply arr_resize_length. Qed.
Definition blank (b : mbuf T) : Prop := exists j k, mb_1 b = repeat one j /\ mb_2 b = repeat one k.
Lemma buf_assign_blank : forall b k, 0 < k -> blank b -> is_one (buf_assign b k one) k.
Proof. intros b k H (i & j & E1 & E2). unfold buf_assign. destruct (Nat.eqb_spec k 0); [lia|]. split; cbn [mb_1 mb_2]; rewrite ?E1, ?E2; apply arr_resize_repeat. Qed.
Lemma blank_0 : blank buf0.
Proof. exists 0, 0. auto. Qed.
Lemma is_one_blank : forall b k, is_one b k -> blank b.
Proof. intros b k [A B]. exists k, k. auto. Qed.
Lemma vec_resize_length : forall A (l : list A) k a, length (vec_resize l k a) = k.
Proof. intros. unfold vec_resize. rewrite app_length, firstn_length, repeat_length. lia. Qed.
Lemma vec_resize_nth : forall A (l : list A) k a i, i < k -> nth i (vec_resize l k a) a = nth i l a.
Proof.
  intros A l k a i H. unfold vec_resize. destruct (Nat.lt_ge_cases i (length l)) as [L|L].
  - rewrite app_nth1 by (rewrite firstn_length; lia). rewrite <- (firstn_skipn k l) at 2. rewrite app_nth1 by (rewrite firstn_length; lia). auto.
  - rewrite app_nth2 by (rewrite firstn_length; lia). rewrite (nth_overflow l) by auto. apply nth_repeat.
Qed.
Lemma nl_pos' : forall v, v < n -> 0 < nl v.
Proof. intros v H. destruct WF as [_ P]. unfold positive in P. rewrite Forall_forall in P. apply P. apply nth_In. auto. Qed.

(** Before assign: a new object, or one that is complete. *)
Definition blank_at (s : mp T) : Prop := forall f v, f < m -> In v (vars f) -> leaf v -> blank (bF s f v).
Lemma assign_ok : forall s, blank_at s -> exists s', assign_hulls T OP g s = Ret s' /\ ok s' /\ same_params s s'.
Proof.
  intros s BL. unfold assign_hulls. change (nvars T g) with n. change (nfacs T g) with m.
  set (s0 := mkMp (vec_resize (m_vin s) n []) (vec_resize (m_vout s) n []) (vec_resize (m_fin s) m []) (vec_resize (m_fout s) m []) (m_acyclic s) (m_norm s)).
  assert (B0 : blank_at s0).
  { intros f v Hf Iv L. unfold bF, get, s0. cbn [m_fin]. rewrite vec_resize_nth by auto. apply (BL f v Hf Iv L). }
  (* the variables *)
  assert (Q : forall k, k <= n -> exists s1, foldM (vhull_assign T OP g) (seq 0 k) s0 = Ret s1 /\
     m_fin s1 = m_fin s0 /\ m_fout s1 = m_fout s0 /\ same_params s s1 /\ length (m_vin s1) = n /\ length (m_vout s1) = n /\
     forall v, v < k -> length (nth v (m_vin s1) []) = length (facs v) /\ length (nth v (m_vout s1) []) = length (facs v) /\ Forall (fun b => lens b (nl v)) (nth v (m_vin s1) [])).
  { induction k as [|k IH]; intros Hk.
    - exists s0. split; [reflexivity|]. unfold s0. cbn [m_fin m_fout m_vin m_vout]. rewrite !vec_resize_length. split; auto. split; auto. split; [split; auto|]. split; auto. split; auto. intros; lia.
    - destruct IH as (s1 & E & E1 & E2 & E3 & E4 & E5 & E6); [lia|]. rewrite seq_S, foldM_app, E. cbn [Nat.add foldM bind]. unfold vhull_assign at 1.
      rewrite (rd_nth _ (m_vin s1) k []) by lia. cbn [bind]. rewrite (rd_nth _ (m_vout s1) k []) by lia. cbn [bind]. rewrite rd_labels by lia. cbn [bind]. cbv zeta.
      rewrite wr_Ret by lia. cbn [bind]. rewrite wr_Ret by lia. cbn [bind].
      eexists. split; [reflexivity|]. cbn [m_fin m_fout m_vin m_vout]. split; auto. split; auto. split; [destruct E3; split; auto|]. rewrite !length_upd. split; auto. split; auto.
      intros v Hv. destruct (Nat.eq_dec k v) as [<-|NE].
      + rewrite !nth_upd_eq by lia. rewrite map_length, !vec_resize_length. split; auto. split; auto. apply Forall_forall. intros b Hb. apply in_map_iff in Hb. destruct Hb as (b' & <- & _). apply buf_assign_lens. apply nl_pos'. lia.
      + rewrite !nth_upd_neq by auto. apply E6. lia. }
  destruct (Q n (le_n _)) as (s1 & E & E1 & E2 & E3 & E4 & E5 & E6). clear Q. rewrite E. cbn [bind]. clear E.
  assert (B1 : blank_at s1). { intros f v. unfold bF. rewrite E1. apply B0. }
  assert (L1 : length (m_fin s1) = m) by (rewrite E1; apply vec_resize_length). assert (L2 : length (m_fout s1) = m) by (rewrite E2; apply vec_resize_length).
  assert (SV : shaped n facs (m_vin s1)) by (split; auto; intros; apply E6; auto). assert (SO : shaped n facs (m_vout s1)) by (split; auto; intros; apply E6; auto).
  assert (LV : forall v f, v < n -> In f (facs v) -> lens (get buf0 facs (m_vin s1) v f) (nl v)).
  { intros v f Hv If. destruct (E6 v Hv) as (A1 & _ & A3). rewrite Forall_forall in A3. apply A3. unfold get. apply nth_In. rewrite A1. apply pos_lt. auto. }
  clear E6 E4 E5 E1 E2 s0 B0.
  (* the factors: assigned up to k *)
  set (inv := fun k s2 => m_vin s2 = m_vin s1 /\ same_params s s2 /\ length (m_fin s2) = m /\ length (m_fout s2) = m /\ shaped n facs (m_vout s2) /\
    (forall f v, k <= f -> f < m -> In v (vars f) -> leaf v -> blank (bF s2 f v)) /\
    (forall f, f < k -> length (nth f (m_fin s2) []) = length (vars f) /\ length (nth f (m_fout s2) []) = length (vars f)) /\
    (forall f v, f < k -> In v (vars f) -> lens (bF s2 f v) (nl v) /\ (leaf v -> is_one (bF s2 f v) (nl v)) /\
       get None facs (m_vout s2) v f = Some (f, pos (vars f) v) /\ get None vars (m_fout s2) f v = Some (v, pos (facs v) f))).
  assert (Q : forall k, k <= m -> exists s2, foldM (fhull_assign T OP g) (seq 0 k) s1 = Ret s2 /\ inv k s2).
  { induction k as [|k IH]; intros Hk.
    - exists s1. split; [reflexivity|]. unfold inv. split; auto. split; auto. split; auto. split; auto. split; auto. split; [intros; apply B1; auto|]. split; intros; lia.
    - destruct IH as (s2 & E & I); [lia|]. rewrite seq_S, foldM_app, E. cbn [Nat.add foldM bind]. clear E. destruct I as (I1 & I2 & I3 & I4 & I5 & I6 & I7 & I8).
      unfold fhull_assign. rewrite rd_fac by lia. cbn [bind]. cbv zeta. change (fst (fac k)) with (vars k).
      rewrite (rd_nth _ (m_fin s2) k []) by lia. cbn [bind]. rewrite (rd_nth _ (m_fout s2) k []) by lia. cbn [bind]. rewrite wr_Ret by lia. cbn [bind]. rewrite wr_Ret by lia. cbn [bind].
      match goal with |- context [foldM ?F (seq 0 (length (vars k))) ?S] => set (F0 := F); set (s3 := S) end.
      set (row3 := vec_resize (nth k (m_fin s2) []) (length (vars k)) buf0) in *.
      (* the inner loop *)
      assert (Q : forall j, j <= length (vars k) -> exists s4, foldM F0 (seq 0 j) s3 = Ret s4 /\
        m_vin s4 = m_vin s1 /\ same_params s s4 /\ length (m_fin s4) = m /\ length (m_fout s4) = m /\ shaped n facs (m_vout s4) /\
        length (nth k (m_fin s4) []) = length (vars k) /\ length (nth k (m_fout s4) []) = length (vars k) /\
        (forall f, f <> k -> nth f (m_fin s4) [] = nth f (m_fin s2) [] /\ nth f (m_fout s4) [] = nth f (m_fout s2) []) /\
        (forall i, i < length (vars k) -> j <= i -> nth i (nth k (m_fin s4) []) buf0 = nth i (nth k (m_fin s2) []) buf0) /\
        (forall v f, v < n -> In f (facs v) -> f <> k -> get None facs (m_vout s4) v f = get None facs (m_vout s2) v f) /\
        (forall i v, nth_error (vars k) i = Some v -> i < j -> lens (nth i (nth k (m_fin s4) []) buf0) (nl v) /\ (leaf v -> is_one (nth i (nth k (m_fin s4) []) buf0) (nl v)) /\
           get None facs (m_vout s4) v k = Some (k, i) /\ nth i (nth k (m_fout s4) []) None = Some (v, pos (facs v) k))).
      { induction j as [|j IH]; intros Hj.
        - exists s3. split; [reflexivity|]. unfold s3. cbn [m_vin m_vout m_fin m_fout]. rewrite !length_upd. split; auto. split; [destruct I2; split; auto|]. split; auto. split; auto. split; auto.
          rewrite !nth_upd_eq by lia. unfold row3. rewrite !vec_resize_length. split; auto. split; auto. split; [intros f NE; rewrite !nth_upd_neq by auto; auto|]. split; [intros; apply vec_resize_nth; auto|]. split; auto. intros; lia.
        - destruct IH as (s4 & E & J1 & J2 & J3 & J4 & J5 & J6 & J7 & J8 & J9 & J10 & J11); [lia|]. rewrite seq_S, foldM_app, E. cbn [Nat.add foldM bind]. clear E. unfold F0 at 1.
          destruct (nth_error_lt _ (vars k) j) as [v Ev]; [lia|]. assert (Iv : In v (vars k)) by (eapply nth_error_In; eauto). assert (Hv : v < n) by (eapply vars_lt; eauto).
          assert (If : In k (facs v)) by (apply facs_in; split; auto; lia).
          rewrite (rd_Ret _ _ _ _ Ev). cbn [bind]. rewrite rd_labels by auto. cbn [bind]. unfold rd2, wr2. rewrite (rd_nth _ (m_fin s4) k []) by lia. cbn [bind]. rewrite (rd_nth _ (nth k (m_fin s4) []) j buf0) by lia. cbn [bind].
          rewrite wr_Ret by lia. cbn [bind]. rewrite wr_Ret by lia. cbn [bind]. rewrite buffer_number_pos by auto. cbn [Nat.add].
          pose proof (pos_in _ _ If) as Ef.
          destruct (wr2_get None n facs facs_nd (m_vout s4) v (pos (facs v) k) k (Some (k, j)) J5 Hv Ef) as (t' & Et & St & Gt & Ot). unfold wr2 in Et. rewrite Et. cbn [bind]. clear Et.
          rewrite (rd_nth _ (m_fout s4) k []) by lia. cbn [bind]. rewrite wr_Ret by lia. cbn [bind]. rewrite wr_Ret by lia. cbn [bind].
          eexists. split; [reflexivity|]. cbn [m_vin m_vout m_fin m_fout]. rewrite !length_upd. split; auto. split; [destruct J2; split; auto|]. split; auto. split; auto. split; auto.
          rewrite !nth_upd_eq by lia. rewrite !length_upd. split; auto. split; auto. split; [intros f NE; rewrite !nth_upd_neq by auto; auto|].
          split; [intros i Hi Hij; rewrite nth_upd_neq by lia; apply J9; auto; lia|].
          split; [intros v' f' Hv' If' NE; rewrite Ot by (auto; congruence); auto|].
          intros i v' Ev' Hi. destruct (Nat.eq_dec j i) as [<-|NE].
          + assert (v' = v) by congruence. subst v'. rewrite !nth_upd_eq by lia. split; [apply buf_assign_lens; apply nl_pos'; auto|]. split; [|auto].
            intros Lf. apply buf_assign_blank; [apply nl_pos'; auto|]. rewrite J9 by lia. pose proof (I6 k v (le_n _) ltac:(lia) Iv Lf) as B. unfold bF, get in B. rewrite (pos_nth _ j v (vars_nodup k) Ev) in B. exact B.
          + rewrite !nth_upd_neq by lia. destruct (J11 i v' Ev' ltac:(lia)) as (X1 & X2 & X3 & X4). split; auto. split; auto. split; auto.
            rewrite Ot; auto; [eapply vars_lt; eapply nth_error_In; eauto|apply facs_in; split; [lia|eapply nth_error_In; eauto]|].
            intros X. injection X as ->. apply NE. apply (proj1 (NoDup_nth_error (vars k)) (vars_nodup k)); [lia|congruence]. }
      destruct (Q (length (vars k)) (le_n _)) as (s4 & E & J1 & J2 & J3 & J4 & J5 & J6 & J7 & J8 & J9 & J10 & J11). clear Q. rewrite E. cbn [bind]. exists s4. split; [reflexivity|].
      unfold inv. split; auto. split; auto. split; auto. split; auto. split; auto. split; [|split].
      + intros f v K1 K2 K3 K4. unfold bF, get. rewrite (proj1 (J8 f ltac:(lia))). apply (I6 f v); auto. lia.
      + intros f Hf. destruct (Nat.eq_dec f k) as [->|NE]; [auto|]. destruct (J8 f NE) as [-> ->]. apply I7. lia.
      + intros f v Hf Iv. destruct (Nat.eq_dec f k) as [->|NE].
        * destruct (J11 (pos (vars k) v) v (pos_in _ _ Iv) (pos_lt _ _ Iv)) as (X1 & X2 & X3 & X4). split; auto.
        * assert (Hv : v < n) by (eapply vars_lt; eauto). destruct (I8 f v ltac:(lia) Iv) as (X1 & X2 & X3 & X4). unfold bF, get in *. destruct (J8 f NE) as [-> ->]. split; auto. split; auto. split; auto.
          rewrite <- X3. apply (J10 v f); auto. apply facs_in. split; auto. lia. }
  destruct (Q m (le_n _)) as (s2 & E & I1 & I2 & I3 & I4 & I5 & I6 & I7 & I8). exists s2. split; auto. split; auto. constructor; auto.
  - rewrite I1. auto.
  - split; auto. intros; apply I7; auto.
  - split; auto. intros; apply I7; auto.
  - intros v f Hv If. apply facs_in in If. apply I8; apply If.
  - intros f v Hf Iv. apply I8; auto.
  - intros v f Hv If. unfold bV. rewrite I1. auto.
  - intros f v Hf Iv. apply I8; auto.
  - intros f v Hf Iv Lf. apply I8; auto.
Qed.
Lemma new_ok : forall a b, exists s, mp_new T OP g a b = Ret s /\ ok s /\ m_acyclic s = a /\ m_norm s = b.
Proof.
  intros a b. destruct (assign_ok (mkMp [] [] [] [] a b)) as (s & E & K & [P1 P2]).
  - intros f v _ _ _. unfold bF, get. cbn [m_fin]. destruct f; destruct (pos _ v); apply blank_0.
  - exists s. auto.
Qed.
Lemma reset_ok : forall s, ok s -> exists s', mp_reset T OP g s = Ret s' /\ ok s' /\ same_params s s'.
Proof. intros s K. apply assign_ok. intros f v Hf Iv L. eapply is_one_blank. apply (ok_leaf _ K); auto. Qed.
End State.
