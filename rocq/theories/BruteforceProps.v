(** C17: Bruteforce visits every labeling exactly once and returns an optimum with its value. *)
From Verif Require Import Base Values GmView GmViewSpec ShapeSpec ShapeProofs GmViewProofs OperationsModel GmViewProps
  MovemakerModel MovemakerSpec MovemakerProofs MovemakerSearch BruteforceModel.
From Coq Require Import Sorted.
#[local] Arguments nth_error : simpl never.

(** * The next labeling *)
Definition maxed (l c : list nat) : Prop := Forall2 (fun n a => S a = n) l c.

Lemma incr_maxed : forall l1 c1 l2 c2, maxed l1 c1 -> incr (l1 ++ l2) (c1 ++ c2) = repeat 0 (length c1) ++ incr l2 c2.
Proof.
  intros l1 c1 l2 c2 H. induction H as [|n a l1 c1 Ha H IH]; auto. cbn [app incr length repeat]. rewrite (proj2 (Nat.eqb_eq (S a) n) Ha). f_equal. auto.
Qed.
Lemma maxed_last : forall l k, positive l -> k < size_of l -> maxed l (coord_of l k) <-> S k = size_of l.
Proof.
  intros l k P Hk. unfold maxed. pose proof (last_pos_size (map (fun n => repeat 0 n) l) k) as X. rewrite map_map in X.
  rewrite (map_ext _ id) in X by (intros; apply repeat_length). rewrite map_id in X.
  rewrite <- X; auto.
  - unfold last_pos. generalize (coord_of l k). clear. induction l as [|n l IH]; intros c; cbn [map].
    + split; intros H; inversion H; constructor.
    + split; intros H; inversion H; subst; constructor; try (rewrite repeat_length in * ); auto; apply IH; auto.
  - apply Forall_map. eapply Forall_impl; [|exact P]. intros. rewrite repeat_length. auto.
Qed.
Lemma zero_prefix : forall st j, j <= length st -> foldM (fun st k => wr st k 0) (seq 0 j) st = Ret (repeat 0 j ++ skipn j st).
Proof.
  intros st j. induction j as [|j IH]; intros H; auto. rewrite seq_S, foldM_app, IH by lia. cbn [bind foldM]. rewrite Nat.add_0_l.
  rewrite wr_Ret by (rewrite app_length, repeat_length, skipn_length; lia). cbn [bind]. f_equal.
  destruct (skipn_split _ st j ltac:(lia)) as [w E]. rewrite E.
  assert (U : forall (p r : list nat) a z, upd (p ++ a :: r) (length p) z = p ++ z :: r) by (clear; induction p; intros; cbn; f_equal; auto).
  specialize (U (repeat 0 j) (skipn (S j) st) w 0). rewrite repeat_length in U. rewrite U.
  replace (S j) with (j + 1) at 2 by lia. rewrite repeat_app, <- app_assoc. auto.
Qed.

Section B.
Variable T : Type.
Variable OP : oper T.
Variable mult : bool.
Variable ACC : accum T.
Variable g : gmv T.

Lemma bf_next_gen : forall l2 l1 c1 c2, v_labels g = l1 ++ l2 -> maxed l1 c1 -> Forall2 lt c2 l2 ->
  bf_next T g (length c1) (length c2) (c1 ++ c2) =
    Ret (if (fix mx (l c : list nat) := match l, c with n :: l, a :: c => (S a =? n) && mx l c | _, _ => true end) l2 c2
         then (c1 ++ c2, true) else (incr (v_labels g) (c1 ++ c2), false)).
Proof.
  induction l2 as [|n l2 IH]; intros l1 c1 c2 E M F; inversion F as [|a n' c2' l2' Ha F']; subst; cbn [bf_next length]; auto.
  assert (L : length l1 = length c1) by (clear - M; induction M; cbn; auto).
  rewrite (rd_Ret _ _ _ a) by (rewrite nth_error_app2, Nat.sub_diag; auto).
  rewrite (rd_Ret _ _ _ n) by (rewrite E, <- L, nth_error_app2, Nat.sub_diag; auto). cbn [bind].
  destruct (Nat.ltb_spec (S a) n) as [H|H].
  - destruct (Nat.eqb_spec (S a) n); [lia|]. cbn [andb].
    rewrite wr_Ret by (rewrite app_length; cbn; lia). cbn [bind].
    assert (U : upd (c1 ++ a :: c2') (length c1) (S a) = c1 ++ S a :: c2') by (clear; induction c1; cbn; auto; f_equal; auto).
    rewrite U. rewrite zero_prefix by (rewrite app_length; lia). cbn [bind]. f_equal. f_equal.
    rewrite E, incr_maxed by auto. cbn [incr]. destruct (Nat.eqb_spec (S a) n); [lia|]. f_equal.
    rewrite skipn_app, skipn_all, Nat.sub_diag. auto.
  - assert (S a = n) by lia. subst n. rewrite Nat.eqb_refl. cbn [andb].
    specialize (IH (l1 ++ [S a]) (c1 ++ [a]) c2'). rewrite <- !app_assoc in IH. cbn [app] in IH. rewrite app_length in IH. cbn [length] in IH.
    rewrite Nat.add_1_r in IH. apply IH; auto. unfold maxed. apply Forall2_app; auto.
Qed.

Lemma bf_next_ok : forall k, positive (v_labels g) -> k < size_of (v_labels g) -> let l := v_labels g in
  bf_next T g 0 (length l) (coord_of l k) = Ret (if S k =? size_of l then (coord_of l k, true) else (coord_of l (S k), false)).
Proof.
  intros k P Hk l. rewrite <- (coord_of_length l k) at 1. change (coord_of l k) with ([] ++ coord_of l k) at 2.
  change 0 with (length (@nil nat)) at 1. unfold l. rewrite (bf_next_gen (v_labels g) [] []); auto; [|constructor|apply coord_of_in_shape; auto].
  cbn [app]. rewrite incr_coord by auto. fold l.
  set (mx := fix mx (l c : list nat) := match l, c with n :: l, a :: c => (S a =? n) && mx l c | _, _ => true end).
  assert (MX : forall l c, length l = length c -> mx l c = true <-> maxed l c).
  { clear. induction l as [|n l IH]; intros [|a c] H; try discriminate; cbn [mx].
    - split; auto. constructor.
    - fold mx. rewrite andb_true_iff, Nat.eqb_eq, IH by (cbn in H; lia). split; [intros []; constructor; auto|intros X; inversion X; auto]. }
  specialize (MX l (coord_of l k)). rewrite coord_of_length in MX. specialize (MX eq_refl).
  pose proof (maxed_last l k P Hk) as ML. destruct (Nat.eqb_spec (S k) (size_of l)) as [E|E].
  - apply ML, MX in E. fold mx. rewrite E. auto.
  - destruct (mx l (coord_of l k)); auto. exfalso. apply E, ML, MX. auto.
Qed.

Variable fin : T -> Prop.
Hypothesis OL : op_laws fin OP.
Hypothesis AL : acc_laws fin OP ACC.
Hypothesis AS : acc_select fin ACC.
Hypothesis W : wf_gmv g.
Hypothesis FG : fin_gmv fin g.
Notation better := (a_bop ACC).
Let l := v_labels g.
Let E k := total OP g (coord_of l k).

Lemma lab_coord : forall k, labeling g (coord_of l k).
Proof. intros. apply coord_of_in_shape. apply W. Qed.
Lemma E_fin' : forall k, fin (E k).
Proof. intros. apply (total_fin T OP fin OL); auto. apply lab_coord. Qed.

Lemma move_all : forall m c, mm_ok T OP g m -> labeling g c ->
  exists m', move T OP mult g m (seq 0 (length l)) c = Ret (m', total OP g c) /\ mm_ok T OP g m'.
Proof.
  intros m c O Lc. assert (DV : distinct_vars g (seq 0 (length l))).
  { split; [apply seq_NoDup|]. apply Forall_forall. intros v Hv. apply in_seq in Hv. fold l. lia. }
  assert (SH : labels_of g (seq 0 (length l)) = l) by (apply map_nth_seq).
  assert (Hx : relabel (mm_state m) (seq 0 (length l)) c = c).
  { assert (Lm : length (mm_state m) = length l) by (apply labeling_length; apply O).
    assert (Lcc : length c = length l) by (apply (labeling_length T g); auto).
    rewrite <- (map_nth_seq (relabel _ _ _)), relabel_length, Lm. apply relabel_at; [apply seq_NoDup| |rewrite seq_length; auto].
    apply Forall_forall. intros v Hv. apply in_seq in Hv. lia. }
  rewrite (move_ok T OP mult fin OL g W FG) by (auto; rewrite SH; auto). rewrite Hx. eexists. split; [reflexivity|]. apply moved_ok; auto.
Qed.

(** After visiting the first [k] labelings. *)
Definition bf_seen (k : nat) (b : bf T) : Prop :=
  mm_ok T OP g (bf_mm b) /\
  match k with
  | 0 => bf_energy b = a_neutral ACC
  | _ => exists j, j < k /\ bf_states b = coord_of l j /\ bf_energy b = E j /\ forall i, i < k -> better (E i) (E j) = false
  end.

Lemma bf_step : forall k b, bf_seen k b -> forall m', mm_ok T OP g m' ->
  bf_seen (S k) (mkBf m' (if better (E k) (bf_energy b) then coord_of l k else bf_states b) (a_op ACC (E k) (bf_energy b))).
Proof.
  intros k b [O H] m' O'. split; auto. cbn [bf_states bf_energy]. destruct k as [|k].
  - rewrite H. destruct (al_neutral _ _ AS (E 0) (E_fin' 0)) as [-> ->]. exists 0. split; auto. split; auto. split; auto.
    intros i Hi. replace i with 0 by lia. apply (al_irrefl _ _ _ AL), E_fin'.
  - destruct H as (j & Hj & HS & HE & HB). rewrite HE. destruct (al_op _ _ AS (E (S k)) (E j) (E_fin' _) (E_fin' _)) as [S1 S2].
    destruct (better (E (S k)) (E j)) eqn:B.
    + rewrite S1 by auto. exists (S k). split; auto. split; auto. split; auto. intros i Hi.
      destruct (Nat.eq_dec i (S k)) as [->|N]; [apply (al_irrefl _ _ _ AL), E_fin'|].
      destruct (better (E i) (E (S k))) eqn:X; auto. rewrite <- (HB i) by lia. symmetry.
      apply (al_trans _ _ _ AL) with (b := E (S k)); auto using E_fin'.
    + rewrite S2 by auto. exists j. split; [lia|]. split; auto. split; auto. intros i Hi.
      destruct (Nat.eq_dec i (S k)) as [->|N]; auto. apply HB. lia.
Qed.

Lemma bf_loop_ok : forall d k fuel stop b, size_of l - k = d -> k < size_of l -> d <= fuel -> bf_seen k b ->
  exists b' k', bf_loop T OP mult ACC g fuel stop k b (coord_of l k) (map (coord_of l) (seq 0 k)) = Ret (b', map (coord_of l) (seq 0 k')) /\
    bf_seen k' b' /\ k < k' <= size_of l /\ (k' = size_of l \/ stop (k' - 1) = true).
Proof.
  induction d as [|d IH]; intros k fuel stop b Hd Hk Hf HS; [lia|]. destruct fuel as [|fuel]; [lia|]. cbn [bf_loop].
  destruct (move_all (bf_mm b) (coord_of l k)) as (m' & EM & OM); [apply HS|apply lab_coord|]. fold l. rewrite EM. cbn [bind].
  pose proof (bf_step k b HS m' OM) as HS'. cbv zeta. fold l. fold (E k).
  pose proof (bf_next_ok k (proj2 W) Hk) as BN. cbv zeta in BN. fold l in BN. rewrite BN.
  assert (TR : map (coord_of l) (seq 0 k) ++ [coord_of l k] = map (coord_of l) (seq 0 (S k))) by (rewrite seq_S, map_app; auto).
  rewrite TR.
  destruct (Nat.eqb_spec (S k) (size_of l)) as [X|X]; cbn [bind orb].
  - eexists. exists (S k). split; [reflexivity|]. split; auto.
  - destruct (stop k) eqn:St.
    + eexists. exists (S k). split; [reflexivity|]. split; auto. split; [lia|]. right. replace (S k - 1) with k by lia. auto.
    + match goal with |- context [bf_loop _ _ _ _ _ _ _ _ ?b1 _ _] => destruct (IH (S k) fuel stop b1) as (b' & k' & E1 & S1 & H1 & H2) end; auto; try lia.
      exists b', k'. split; auto. split; auto. split; [lia|auto].
Qed.

(** Whatever was done before ([b] is any object whose Movemaker is in order, C15), infer visits the labelings
    one by one, never one twice, all of them unless the visitor stops it, and ends with the best labeling
    visited and its value. *)
Theorem C17_infer : forall fuel stop b, rounds g <= fuel -> mm_ok T OP g (bf_mm b) ->
  exists b' trace, bf_infer T OP mult ACC g fuel stop b = Ret (b', trace) /\ mm_ok T OP g (bf_mm b') /\
    NoDup trace /\ (forall x, In x trace -> labeling g x) /\
    In (bf_arg b') trace /\ bf_value b' = total OP g (bf_arg b') /\
    (forall x, In x trace -> better (total OP g x) (bf_value b') = false) /\
    ((forall n, stop n = false) -> forall x, labeling g x -> In x trace).
Proof.
  intros fuel stop b Hf O. unfold bf_infer. fold l.
  assert (P : positive l) by apply W. pose proof (size_of_pos l P) as SP. unfold rounds in Hf. fold l in Hf.
  rewrite <- (coord_of_0 l P).
  destruct (bf_loop_ok (size_of l) 0 fuel stop (mkBf (bf_mm b) (bf_states b) (a_neutral ACC))) as (b' & k' & E1 & [S0 S1] & H1 & H2); auto; try lia.
  { split; auto. }
  exists b', (map (coord_of l) (seq 0 k')). split; auto. split; auto. destruct k' as [|k']; [lia|]. destruct S1 as (j & Hj & HS & HE & HB).
  split; [|split; [|split; [|split; [|split]]]].
  - apply NoDup_map_in; [apply seq_NoDup|]. intros i1 i2 I1 I2 X. apply in_seq in I1, I2.
    rewrite <- (index_of_coord l i1), <- (index_of_coord l i2), X by (auto; lia). auto.
  - intros x Hx. apply in_map_iff in Hx. destruct Hx as (i & <- & _). apply lab_coord.
  - unfold bf_arg. rewrite HS. apply in_map, in_seq. lia.
  - unfold bf_value, bf_arg. rewrite HE, HS. auto.
  - intros x Hx. apply in_map_iff in Hx. destruct Hx as (i & <- & Hi). apply in_seq in Hi. unfold bf_value. rewrite HE. apply HB. lia.
  - intros NS x Hx. destruct H2 as [H2|H2]; [|rewrite NS in H2; discriminate]. apply in_map_iff. exists (index_of l x).
    split; [apply coord_of_index; auto|]. apply in_seq. pose proof (index_of_lt l x Hx). lia.
Qed.

(** Constructed, used, reset and used again: the result is a global optimum. *)
Inductive bop_ : Type := BInfer (stop : nat -> bool) | BReset.
Definition bstep (fuel : nat) (b : bf T) (o : bop_) : outcome (bf T) :=
  match o with BInfer stop => r <- bf_infer T OP mult ACC g fuel stop b ;; Ret (fst r) | BReset => bf_reset T OP ACC g b end.

Lemma bstep_ok : forall fuel ops b, rounds g <= fuel -> mm_ok T OP g (bf_mm b) ->
  exists b', foldM (bstep fuel) ops b = Ret b' /\ mm_ok T OP g (bf_mm b').
Proof.
  intros fuel ops. induction ops as [|o ops IH]; intros b Hf O; [cbn; eauto|]. cbn [foldM]. destruct o as [stop|]; cbn [bstep].
  - destruct (C17_infer fuel stop b Hf O) as (b' & tr & E1 & O' & _). rewrite E1. cbn [bind fst]. auto.
  - unfold bf_reset. destruct (mm_reset_ok T OP g W (bf_mm b) O) as (m' & E1 & O' & _). rewrite E1. cbn [bind]. apply IH; auto.
Qed.

Theorem C17_optimal : forall fuel ops, rounds g <= fuel ->
  exists b b' trace, (b0 <- bf_new T OP ACC g ;; foldM (bstep fuel) ops b0) = Ret b /\
    bf_infer T OP mult ACC g fuel (fun _ => false) b = Ret (b', trace) /\
    optimal OP ACC g (bf_arg b') /\ bf_value b' = total OP g (bf_arg b') /\
    NoDup trace /\ forall x, In x trace <-> labeling g x.
Proof.
  intros fuel ops Hf. unfold bf_new. destruct (mm_new_ok T OP g W) as (m & E1 & O & _). rewrite E1. cbn [bind].
  destruct (bstep_ok fuel ops (mkBf m (repeat 0 (length (v_labels g))) (a_neutral ACC)) Hf O) as (b & E2 & O2). exists b.
  destruct (C17_infer fuel (fun _ => false) b Hf O2) as (b' & tr & E3 & _ & ND & H1 & H2 & H3 & H4 & H5). exists b', tr.
  split; auto. split; auto. split; [|split; [auto|split; [auto|]]].
  - split; auto. intros y Hy. rewrite <- H3. auto.
  - intros x. split; auto.
Qed.
End B.
Print Assumptions C17_infer.
Print Assumptions C17_optimal.

(** A case. *)
Definition bf_ex : gmv ext := mkGmv [2; 3] [ ([0; 1], fun l => Fin (Z.of_nat ((nth 0 l 0 * 5 + nth 1 l 0 * 3 + 2) mod 7))); ([1], fun l => Fin (Z.of_nat (nth 0 l 0))) ].
Example C17_case : wf_gmv bf_ex /\ fin_gmv finite bf_ex /\
  (b <- bf_new ext AdderE MinimizerE bf_ex ;; r <- bf_infer ext AdderE false MinimizerE bf_ex 6 (fun _ => false) b ;; Ret (bf_arg (fst r), bf_value (fst r), length (snd r)))
  = Ret ([1; 0], Fin 0, 6).
Proof.
  split; [split; cbn; repeat constructor; cbn; lia|]. split; [|vm_compute; reflexivity].
  repeat constructor; intros; eexists; reflexivity.
Qed.

(** With infinite values the partial updates of the Movemaker give "not a number" and the optimum is missed. *)
Definition bf_inf : gmv ext := mkGmv [2] [ ([0], fun l => if nth 0 l 0 =? 0 then PInf else Fin 1) ].
Theorem C17_infinite_refuted : exists g b, wf_gmv g /\
  (b <- bf_new ext AdderE MinimizerE g ;; r <- bf_infer ext AdderE false MinimizerE g 2 (fun _ => false) b ;; Ret (fst r)) = Ret b /\
  bf_arg b = [0] /\ bf_value b = NaN /\ total AdderE g [0] = PInf /\ total AdderE g [1] = Fin 1.
Proof.
  exists bf_inf. eexists. split; [split; cbn; repeat constructor; cbn; lia|]. split; [vm_compute; reflexivity|]. repeat split; reflexivity.
Qed.
Print Assumptions C17_infinite_refuted.
