(** C21: function views evaluate to the function they view. *)
From Verif Require Import Base Values ShapeSpec ShapeProofs FunctionViewsModel.
From Coq Require Import Sorted.
#[local] Arguments nth_error : simpl never.

(** ** Specification *)
(** The positions that are not fixed, in increasing order. *)
Definition fixed_at (pl : list pal) (i : nat) : bool := existsb (fun p => fst p =? i) pl.
Definition free_from (s d : nat) (pl : list pal) : list nat := filter (fun i => negb (fixed_at pl i)) (seq s d).
Definition free (d : nat) (pl : list pal) : list nat := free_from 0 d pl.
(** [c] has the fixed labels at the fixed positions and the labels [x], in order, at the others. *)
Definition filled (d : nat) (pl : list pal) (x c : list nat) : Prop :=
  length c = d /\ (forall p l, In (p, l) pl -> nth p c 0 = l) /\ map (fun i => nth i c 0) (free d pl) = x.
(** Fixed positions are strictly increasing and exist. *)
Definition fixing (d : nat) (pl : list pal) : Prop := StronglySorted lt (map fst pl) /\ Forall (fun p => fst p < d) pl.

(** ** Proofs *)
Lemma fixed_at_In : forall pl i, fixed_at pl i = true <-> In i (map fst pl).
Proof.
  intros pl i. unfold fixed_at. rewrite existsb_exists, in_map_iff. split.
  - intros (p & H & E). apply Nat.eqb_eq in E. eauto.
  - intros (p & E & H). exists p. split; auto. apply Nat.eqb_eq. auto.
Qed.
Lemma free_In : forall s d pl i, In i (free_from s d pl) <-> s <= i < s + d /\ ~ In i (map fst pl).
Proof.
  intros. unfold free_from. rewrite filter_In, in_seq, negb_true_iff. rewrite <- fixed_at_In. destruct (fixed_at pl i); intuition congruence.
Qed.
Lemma free_NoDup : forall s d pl, NoDup (free_from s d pl).
Proof. intros. apply NoDup_filter, seq_NoDup. Qed.
Lemma free_ext : forall s d pl pl', (forall i, s <= i < s + d -> fixed_at pl i = fixed_at pl' i) -> free_from s d pl = free_from s d pl'.
Proof. intros. unfold free_from. apply filter_ext_in. intros i Hi. apply in_seq in Hi. rewrite H by lia. auto. Qed.
Lemma free_app : forall s d1 d2 pl, free_from s (d1 + d2) pl = free_from s d1 pl ++ free_from (s + d1) d2 pl.
Proof. intros. unfold free_from. rewrite seq_app, filter_app. auto. Qed.
Lemma free_none : forall s d pl, (forall i, s <= i < s + d -> fixed_at pl i = false) -> free_from s d pl = seq s d.
Proof.
  intros s d pl H. unfold free_from. assert (G : forall l, (forall i, In i l -> fixed_at pl i = false) -> filter (fun i => negb (fixed_at pl i)) l = l).
  { induction l as [|a l IH]; intros Hl; auto. cbn. rewrite Hl by (left; auto). cbn. f_equal. apply IH. intros; apply Hl; right; auto. }
  apply G. intros i Hi. apply in_seq in Hi. apply H. lia.
Qed.

(** Skipping from the position [y]: the counter and the position move together. *)
Lemma skip_shift : forall pl ind a, ind + fold_left (fun add p => if fst p <=? ind + add then S add else add) pl a =
  fold_left (fun y (p : pal) => if fst p <=? y then S y else y) pl (ind + a).
Proof.
  induction pl as [|p pl IH]; intros ind a; auto. cbn [fold_left]. rewrite IH. f_equal. destruct (fst p <=? ind + a); lia.
Qed.
Lemma skip_none : forall pl y, Forall (fun p : pal => y < fst p) pl -> fold_left (fun y (p : pal) => if fst p <=? y then S y else y) pl y = y.
Proof.
  intros pl y H. induction H as [|p pl Hp H IH]; auto. cbn [fold_left]. destruct (Nat.leb_spec (fst p) y); [lia|auto].
Qed.
Lemma skip_nth : forall pl s d y, StronglySorted lt (map fst pl) -> Forall (fun p => s <= fst p < s + d) pl -> s <= y -> y - s < d - length pl ->
  nth_error (free_from s d pl) (y - s) = Some (fold_left (fun y (p : pal) => if fst p <=? y then S y else y) pl y).
Proof.
  induction pl as [|[p l] pl IH]; intros s d y HS HB Hy Hd; cbn [length] in Hd.
  - cbn [fold_left]. rewrite free_none by auto. rewrite (nth_error_nth' _ 0) by (rewrite seq_length; lia). rewrite seq_nth by lia. f_equal. lia.
  - cbn [map fst] in HS. inversion HS as [|? ? HS' HF]; subst. apply Forall_cons_iff in HB. destruct HB as [Hp HB]. cbn [fst] in Hp.
    rewrite Forall_map in HF.
    (* split the range at p *)
    assert (E : free_from s d ((p, l) :: pl) = seq s (p - s) ++ free_from (S p) (d - (S p - s)) pl).
    { replace d with ((p - s) + (1 + (d - (S p - s)))) at 1 by lia. rewrite !free_app. replace (s + (p - s)) with p by lia.
      rewrite free_none.
      2:{ intros i Hi. apply not_true_is_false. rewrite fixed_at_In. cbn [map fst]. intros [X|X]; [lia|]. rewrite in_map_iff in X. destruct X as (q & <- & Hq).
          rewrite Forall_forall in HF. specialize (HF _ Hq). lia. }
      f_equal. cbn [free_from seq filter]. replace (fixed_at ((p, l) :: pl) p) with true by (cbn; rewrite Nat.eqb_refl; auto). cbn [negb app].
      unfold free_from at 1. cbn [seq filter]. replace (fixed_at ((p, l) :: pl) p) with true by (cbn; rewrite Nat.eqb_refl; auto). cbn [negb app].
      rewrite Nat.add_1_r. apply free_ext. intros i Hi. cbn. destruct (Nat.eqb_spec p i); [lia|auto]. }
    rewrite E. cbn [fold_left fst]. destruct (Nat.leb_spec p y) as [L|L].
    + rewrite nth_error_app2 by (rewrite seq_length; lia). rewrite seq_length.
      replace (y - s - (p - s)) with (S y - S p) by lia. apply IH; auto; [|lia|lia].
      apply Forall_forall. intros q Hq. rewrite Forall_forall in HF, HB. specialize (HF _ Hq). specialize (HB _ Hq). lia.
    + rewrite nth_error_app1 by (rewrite seq_length; lia). rewrite skip_none.
      * rewrite (nth_error_nth' _ 0) by (rewrite seq_length; lia). rewrite seq_nth by lia. f_equal. lia.
      * eapply Forall_impl; [|exact HF]. cbn. intros. lia.
Qed.
Lemma free_length : forall pl d, fixing d pl -> length (free d pl) = d - length pl.
Proof.
  intros pl d [HS HB]. unfold free. assert (G : forall l d s, StronglySorted lt (map fst l) -> Forall (fun p : pal => s <= fst p < s + d) l -> length (free_from s d l) + length l = d).
  { clear. induction l as [|[p l0] pl IH]; intros d s HS HB.
    - rewrite free_none by auto. rewrite seq_length. cbn. lia.
    - cbn [map fst] in HS. inversion HS as [|? ? HS' HF]; subst. apply Forall_cons_iff in HB. destruct HB as [Hp HB]. cbn [fst] in Hp. rewrite Forall_map in HF.
      replace d with ((p - s) + (1 + (d - (S p - s)))) at 1 by lia. rewrite !free_app, !app_length. replace (s + (p - s)) with p by lia.
      rewrite free_none.
      2:{ intros i Hi. apply not_true_is_false. rewrite fixed_at_In. cbn [map fst]. intros [X|X]; [lia|]. rewrite in_map_iff in X. destruct X as (q & <- & Hq).
          rewrite Forall_forall in HF. specialize (HF _ Hq). lia. }
      rewrite seq_length. unfold free_from at 1. cbn [seq filter]. replace (fixed_at ((p, l0) :: pl) p) with true by (cbn; rewrite Nat.eqb_refl; auto). cbn [negb length].
      rewrite Nat.add_1_r. rewrite (free_ext _ _ _ pl) by (intros i Hi; cbn; destruct (Nat.eqb_spec p i); [lia|auto]).
      assert (X : length (free_from (S p) (d - (S p - s)) pl) + length pl = d - (S p - s)); [|cbn [length]; lia]. apply IH; auto.
      apply Forall_forall. intros q Hq. rewrite Forall_forall in HF, HB. specialize (HF _ Hq). specialize (HB _ Hq). lia. }
  specialize (G pl d 0 HS). assert (X : Forall (fun p : pal => 0 <= fst p < 0 + d) pl) by (eapply Forall_impl; [|exact HB]; intros [? ?] ?; cbn [fst] in *; lia). specialize (G X). lia.
Qed.
Lemma lookUp_free : forall pl d, fixing d pl -> map (fun ind => ind + vf_skip pl ind) (seq 0 (d - length pl)) = free d pl.
Proof.
  intros pl d F. apply (nth_ext _ _ 0 0); [rewrite map_length, seq_length, free_length; auto|].
  intros i Hi. rewrite map_length, seq_length in Hi. rewrite (nth_indep _ 0 (0 + vf_skip pl 0)) by (rewrite map_length, seq_length; auto).
  rewrite (map_nth (fun ind => ind + vf_skip pl ind)). rewrite seq_nth by auto. cbn [Nat.add]. unfold vf_skip. rewrite skip_shift, Nat.add_0_r.
  destruct F as [HS HB]. pose proof (skip_nth pl 0 d i HS) as X. rewrite Nat.sub_0_r in X.
  rewrite (nth_error_nth (free d pl) i 0 (x := fold_left (fun y (p : pal) => if fst p <=? y then S y else y) pl i)); auto.
  apply X; auto; [|lia]. eapply Forall_impl; [|exact HB]. intros [? ?] ?; cbn [fst] in *; lia.
Qed.

Lemma filled_unique : forall d pl x c c', fixing d pl -> filled d pl x c -> filled d pl x c' -> c = c'.
Proof.
  intros d pl x c c' F (L1 & F1 & M1) (L2 & F2 & M2). apply (nth_ext _ _ 0 0); [congruence|]. intros i Hi.
  destruct (in_dec Nat.eq_dec i (map fst pl)) as [H|H].
  - apply in_map_iff in H. destruct H as ([p l] & <- & Hp). cbn [fst]. rewrite (F1 p l Hp), (F2 p l Hp). auto.
  - rewrite <- M2 in M1. assert (X : In i (free d pl)) by (apply free_In; split; [lia|auto]). clear - M1 X.
    induction (free d pl) as [|a l IH]; [destruct X|]. cbn in M1. injection M1 as E1 E2. destruct X as [->|X]; auto.
Qed.

Lemma nth_map_in : forall (f : nat -> nat) l i, i < length l -> nth i (map f l) 0 = f (nth i l 0).
Proof. intros f l i H. rewrite (nth_indep _ 0 (f 0)) by (rewrite map_length; auto). apply map_nth. Qed.

Section V.
Variable T : Type.
Implicit Types f : facv T.

(** A constructed view, after any number of evaluations and size queries. *)
Definition vf_ok f pl (v : viewfix T) : Prop :=
  vf_factor v = f /\ vf_pal v = pl /\ length (vf_buf v) = length (fa_shape f) /\ vf_lookUp v = free (length (fa_shape f)) pl /\
  match vf_sz v with None => True | Some s => s = size_of (map (fun i => nth i (fa_shape f) 0) (free (length (fa_shape f)) pl)) end.

Lemma vf_new_ok : forall f pl, fixing (length (fa_shape f)) pl -> exists v, vf_new f pl = Ret v /\ vf_ok f pl v.
Proof.
  intros f pl F. unfold vf_new. assert (L : length pl <= length (fa_shape f)).
  { destruct F as [HS HB]. rewrite <- (map_length fst). apply NoDup_bounded_length.
    - clear - HS. induction HS as [|a l HS IH HF]; constructor; auto. intros X. rewrite Forall_forall in HF. specialize (HF _ X). lia.
    - intros i Hi. apply in_map_iff in Hi. destruct Hi as (p & <- & Hp). rewrite Forall_forall in HB. auto. }
  destruct (Nat.ltb_spec (length (fa_shape f)) (length pl)); [lia|]. eexists. split; [reflexivity|]. split; [auto|]. split; [auto|].
  split; [apply repeat_length|]. split; [apply lookUp_free; auto|cbn; auto].
Qed.

Lemma write_free : forall lk x b, NoDup lk -> Forall (fun i => i < length b) lk -> length x = length lk ->
  exists b', foldM (fun b ind => i <- rd lk ind ;; l <- rd x ind ;; wr b i l) (seq 0 (length lk)) b = Ret b' /\ length b' = length b /\
    map (fun i => nth i b' 0) lk = x.
Proof.
  intros lk x b ND HB HL.
  assert (G : forall j, j <= length lk -> exists b', foldM (fun b ind => i <- rd lk ind ;; l <- rd x ind ;; wr b i l) (seq 0 j) b = Ret b' /\ length b' = length b /\
     forall k, k < j -> nth (nth k lk 0) b' 0 = nth k x 0).
  { induction j as [|j IH]; intros Hj; [exists b; split; auto; split; auto; lia|]. destruct IH as (b1 & E & L & H); [lia|].
    rewrite seq_S, foldM_app, E. cbn [bind foldM]. rewrite Nat.add_0_l, (rd_nth _ lk j 0) by lia. cbn [bind]. rewrite (rd_nth _ x j 0) by lia. cbn [bind].
    assert (Hb : nth j lk 0 < length b) by (rewrite Forall_forall in HB; apply HB, nth_In; lia).
    rewrite wr_Ret by lia. cbn [bind]. eexists. split; [reflexivity|]. split; [rewrite length_upd; auto|]. intros k Hk.
    destruct (Nat.eq_dec k j) as [->|N]; [apply nth_upd_eq; lia|]. rewrite nth_upd_neq; [apply H; lia|].
    intros X. apply N. symmetry. apply (proj1 (NoDup_nth lk 0) ND); auto; lia. }
  destruct (G (length lk) (le_n _)) as (b' & E & L & H). exists b'. split; auto. split; auto.
  apply (nth_ext _ _ 0 0); [rewrite map_length; auto|]. intros k Hk. rewrite map_length in Hk.
  rewrite (nth_indep _ 0 (nth 0 b' 0)) by (rewrite map_length; auto). rewrite (map_nth (fun i => nth i b' 0)). auto.
Qed.
Lemma write_fixed : forall (pl : list pal) b, NoDup (map fst pl) -> Forall (fun p => fst p < length b) pl ->
  exists b', foldM (fun b p => wr b (fst p) (snd p)) pl b = Ret b' /\ length b' = length b /\
    (forall p l, In (p, l) pl -> nth p b' 0 = l) /\ (forall i, ~ In i (map fst pl) -> nth i b' 0 = nth i b 0).
Proof.
  induction pl as [|[p l] pl IH]; intros b ND HB.
  - exists b. split; auto. split; auto. split; auto. intros p l [].
  - cbn [map fst] in ND. apply NoDup_cons_iff in ND. destruct ND as [NI ND]. apply Forall_cons_iff in HB. destruct HB as [Hp HB]. cbn [fst] in Hp.
    cbn [foldM fst snd]. rewrite wr_Ret by auto. cbn [bind]. destruct (IH (upd b p l) ND) as (b' & E & L & H1 & H2).
    { eapply Forall_impl; [|exact HB]. intros. rewrite length_upd. auto. }
    exists b'. split; auto. rewrite length_upd in L. split; auto. split.
    + intros q m [X|X]; auto. injection X as <- <-. rewrite H2 by auto. apply nth_upd_eq. auto.
    + intros i Hi. cbn [map fst] in Hi. rewrite H2 by (intros X; apply Hi; right; auto). apply nth_upd_neq. intros ->. apply Hi. left. auto.
Qed.
Lemma sorted_nodup' : forall l, StronglySorted lt l -> NoDup l.
Proof. intros l H. induction H as [|a l H IH HF]; constructor; auto. intros X. rewrite Forall_forall in HF. specialize (HF _ X). lia. Qed.

Lemma vf_call_ok : forall f pl v x, fixing (length (fa_shape f)) pl -> vf_ok f pl v -> length x = length (fa_shape f) - length pl ->
  exists v' c, vf_call v x = Ret (v', fa_value f c) /\ vf_ok f pl v' /\ filled (length (fa_shape f)) pl x c.
Proof.
  intros f pl v x F (V1 & V2 & V3 & V4 & V5) Lx. unfold vf_call. rewrite V4.
  destruct (write_free (free (length (fa_shape f)) pl) x (vf_buf v)) as (b1 & E1 & L1 & H1).
  { apply free_NoDup. } { apply Forall_forall. intros i Hi. apply free_In in Hi. lia. } { rewrite free_length; auto. }
  rewrite E1. cbn [bind]. rewrite V2. destruct F as [HS HB]. destruct (write_fixed pl b1) as (b2 & E2 & L2 & H2 & H3).
  { apply sorted_nodup'; auto. } { eapply Forall_impl; [|exact HB]. cbn. intros. lia. }
  rewrite E2. cbn [bind]. unfold fa_call. rewrite V1. replace (length b2 =? length (fa_shape f)) with true by (symmetry; apply Nat.eqb_eq; lia). cbn [bind].
  eexists. exists b2. split; [reflexivity|]. split.
  - split; [auto|]. split; [auto|]. split; [cbn; lia|]. split; [auto|exact V5].
  - split; [lia|]. split; auto. rewrite <- H1. apply map_ext_in. intros i Hi. apply free_In in Hi. apply H3. apply Hi.
Qed.

Lemma size_split : forall (sh : list nat) pl s, StronglySorted lt (map fst pl) -> Forall (fun p => s <= fst p < s + length sh) pl ->
  size_of sh = size_of (map (fun i => nth (i - s) sh 0) (free_from s (length sh) pl)) * size_of (map (fun p : pal => nth (fst p - s) sh 0) pl).
Proof.
  induction sh as [|n sh IH]; intros pl s HS HB.
  - destruct pl as [|p pl]; [reflexivity|]. apply Forall_cons_iff in HB. cbn in HB. lia.
  - unfold free_from. cbn [length seq filter]. destruct pl as [|[p l] pl].
    + change (filter (fun i => negb (fixed_at [] i)) (seq (S s) (length sh))) with (free_from (S s) (length sh) []).
      replace (fixed_at [] s) with false by auto. cbn [negb map]. specialize (IH [] (S s) HS). unfold size_of in *. cbn [map fold_right] in *. rewrite Nat.sub_diag. cbn [nth].
      rewrite IH by constructor. rewrite <- Nat.mul_assoc. f_equal. f_equal. f_equal. apply map_ext_in. intros i Hi. apply free_In in Hi. replace (i - s) with (S (i - S s)) by lia. auto.
    + cbn [map fst] in HS. inversion HS as [|? ? HS' HF]; subst. rewrite Forall_map in HF. apply Forall_cons_iff in HB. destruct HB as [Hp HB]. cbn [fst length] in Hp.
      destruct (Nat.eq_dec p s) as [->|N].
      * replace (fixed_at ((s, l) :: pl) s) with true by (cbn; rewrite Nat.eqb_refl; auto). cbn [negb].
        assert (HB' : Forall (fun p => S s <= fst p < S s + length sh) pl).
        { apply Forall_forall. intros q Hq. rewrite Forall_forall in HF, HB. specialize (HF _ Hq). specialize (HB _ Hq). cbn in HB. lia. }
        specialize (IH pl (S s) HS' HB'). unfold size_of in *. cbn [map fold_right fst]. rewrite IH. rewrite Nat.sub_diag. cbn [nth].
        fold (free_from (S s) (length sh) ((s, l) :: pl)). rewrite (free_ext _ _ ((s, l) :: pl) pl) by (intros i Hi; cbn; destruct (Nat.eqb_spec s i); [lia|auto]).
        rewrite (map_ext_in (fun i => nth (i - s) (n :: sh) 0) (fun i => nth (i - S s) sh 0)) by (intros i Hi; apply free_In in Hi; replace (i - s) with (S (i - S s)) by lia; auto).
        rewrite (map_ext_in (fun p : pal => nth (fst p - s) (n :: sh) 0) (fun p : pal => nth (fst p - S s) sh 0)).
        2:{ intros q Hq. rewrite Forall_forall in HB'. specialize (HB' _ Hq). replace (fst q - s) with (S (fst q - S s)) by lia. auto. }
        lia.
      * assert (FA : fixed_at ((p, l) :: pl) s = false).
        { apply not_true_is_false. rewrite fixed_at_In. cbn [map fst]. intros [X|X]; [lia|]. rewrite in_map_iff in X. destruct X as (q & E & Hq).
          rewrite Forall_forall in HF, HB. specialize (HF _ Hq). lia. }
        rewrite FA. cbn [negb].
        assert (HB' : Forall (fun p => S s <= fst p < S s + length sh) ((p, l) :: pl)).
        { constructor; [cbn; lia|]. apply Forall_forall. intros q Hq. rewrite Forall_forall in HF, HB. specialize (HF _ Hq). specialize (HB _ Hq). cbn in HB. lia. }
        specialize (IH ((p, l) :: pl) (S s) HS HB'). fold (free_from (S s) (length sh) ((p, l) :: pl)).
        rewrite (map_ext_in (fun p : pal => nth (fst p - s) (n :: sh) 0) (fun p : pal => nth (fst p - S s) sh 0)).
        2:{ intros q Hq. rewrite Forall_forall in HB'. specialize (HB' _ Hq). replace (fst q - s) with (S (fst q - S s)) by lia. auto. }
        cbn [map]. rewrite (map_ext_in (fun i => nth (i - s) (n :: sh) 0) (fun i => nth (i - S s) sh 0)) by (intros i Hi; apply free_In in Hi; replace (i - s) with (S (i - S s)) by lia; auto).
        unfold size_of in *. cbn [fold_right] in *. rewrite IH. rewrite Nat.sub_diag. cbn [nth]. cbn [map fold_right]. lia.
Qed.

Lemma vf_size_ok : forall f pl v, fixing (length (fa_shape f)) pl -> positive (fa_shape f) -> vf_ok f pl v ->
  exists v', vf_size v = Ret (v', size_of (map (fun i => nth i (fa_shape f) 0) (free (length (fa_shape f)) pl))) /\ vf_ok f pl v'.
Proof.
  intros f pl v [HS HB] P (V1 & V2 & V3 & V4 & V5). unfold vf_size. destruct (vf_sz v) as [s|] eqn:E.
  { exists v. rewrite V5. split; auto. split; [auto|]. split; [auto|]. split; [auto|]. split; [auto|]. rewrite E. auto. }
  rewrite V1, V2. unfold fa_size. rewrite (size_split (fa_shape f) pl 0 HS) by (eapply Forall_impl; [|exact HB]; intros [? ?] ?; cbn [fst] in *; lia).
  rewrite (map_ext (fun i => nth (i - 0) (fa_shape f) 0) (fun i => nth i (fa_shape f) 0)) by (intros; rewrite Nat.sub_0_r; auto).
  rewrite (map_ext (fun p : pal => nth (fst p - 0) (fa_shape f) 0) (fun p : pal => nth (fst p) (fa_shape f) 0)) by (intros; rewrite Nat.sub_0_r; auto).
  fold (free (length (fa_shape f)) pl). set (k := size_of (map (fun i => nth i (fa_shape f) 0) (free (length (fa_shape f)) pl))).
  assert (G : forall l k, Forall (fun p => fst p < length (fa_shape f)) l ->
     foldM (fun s p => n <- rd (fa_shape f) (fst p) ;; if n =? 0 then Undef else Ret (s / n)) l (k * size_of (map (fun p : pal => nth (fst p) (fa_shape f) 0) l)) = Ret k).
  { clear - P. induction l as [|p l IH]; intros k H; [cbn [foldM map]; unfold size_of; cbn; f_equal; lia|]. apply Forall_cons_iff in H. destruct H as [Hp H].
    cbn [foldM]. rewrite (rd_nth _ _ (fst p) 0) by auto. cbn [bind]. assert (N : 0 < nth (fst p) (fa_shape f) 0) by (unfold positive in P; rewrite Forall_forall in P; apply P, nth_In; auto).
    destruct (Nat.eqb_spec (nth (fst p) (fa_shape f) 0) 0); [lia|]. cbn [bind map]. unfold size_of. cbn [fold_right]. fold (size_of (map (fun p : pal => nth (fst p) (fa_shape f) 0) l)).
    replace (k * (nth (fst p) (fa_shape f) 0 * size_of (map (fun p0 : pal => nth (fst p0) (fa_shape f) 0) l))) with ((k * size_of (map (fun p0 : pal => nth (fst p0) (fa_shape f) 0) l)) * nth (fst p) (fa_shape f) 0) by lia.
    rewrite Nat.div_mul by lia. apply IH. auto. }
  rewrite G by auto. cbn [bind]. eexists. split; [reflexivity|]. split; [auto|]. split; [auto|]. split; [auto|]. split; [auto|reflexivity].
Qed.

(** Queries a client can make of a view. *)
Inductive vop : Type := VCall (x : list nat) | VSize.
Definition vstep (v : viewfix T) (o : vop) : outcome (viewfix T) :=
  match o with VCall x => r <- vf_call v x ;; Ret (fst r) | VSize => r <- vf_size v ;; Ret (fst r) end.
Definition vlegal f (pl : list pal) (o : vop) : Prop := match o with VCall x => length x = length (fa_shape f) - length pl | VSize => True end.

(** For every factor with positive extents, every sorted choice of fixed positions and every history of queries: the
    view has the extents of the free positions, in order; its dimension and size match; and calling it gives the
    factor's value at the coordinate that has the fixed labels at the fixed positions and the arguments elsewhere. *)
Theorem C21_fix : forall f pl ops, fixing (length (fa_shape f)) pl -> positive (fa_shape f) -> Forall (vlegal f pl) ops ->
  exists v, (v <- vf_new f pl ;; foldM vstep ops v) = Ret v /\
    let extents := map (fun i => nth i (fa_shape f) 0) (free (length (fa_shape f)) pl) in
    vf_dimension v = length extents /\
    (forall i, i < length extents -> vf_shape v i = Ret (nth i extents 0)) /\
    (exists v', vf_size v = Ret (v', size_of extents)) /\
    forall x c, filled (length (fa_shape f)) pl x c -> exists v', vf_call v x = Ret (v', fa_value f c).
Proof.
  intros f pl ops F P HO. destruct (vf_new_ok f pl F) as (v0 & E0 & O0). rewrite E0. cbn [bind]. clear E0.
  assert (G : exists v, foldM vstep ops v0 = Ret v /\ vf_ok f pl v).
  { revert v0 O0. induction HO as [|o ops Ho HO IH]; intros v0 O0; [exists v0; auto|]. cbn [foldM]. destruct o as [x|]; cbn [vstep].
    - destruct (vf_call_ok f pl v0 x F O0 Ho) as (v' & c & E & O' & _). rewrite E. cbn [bind fst]. auto.
    - destruct (vf_size_ok f pl v0 F P O0) as (v' & E & O'). rewrite E. cbn [bind fst]. auto. }
  destruct G as (v & E & O). exists v. split; auto. pose proof (free_length pl _ F) as FL. pose proof O as (V1 & V2 & V3 & V4 & V5).
  cbn zeta. rewrite map_length, FL. split; [unfold vf_dimension; rewrite V1, V2; auto|]. split; [|split].
  - intros i Hi. unfold vf_shape. rewrite V1, V2. pose proof (lookUp_free pl _ F) as LF.
    assert (X : i + vf_skip pl i = nth i (free (length (fa_shape f)) pl) 0).
    { rewrite <- LF. rewrite (nth_indep _ 0 (0 + vf_skip pl 0)) by (rewrite map_length, seq_length; auto). rewrite (map_nth (fun ind => ind + vf_skip pl ind)). rewrite seq_nth by auto. auto. }
    rewrite X. assert (Y : In (nth i (free (length (fa_shape f)) pl) 0) (free (length (fa_shape f)) pl)) by (apply nth_In; lia).
    apply free_In in Y. rewrite (rd_nth _ _ _ 0) by lia. f_equal. symmetry. apply nth_map_in. lia.
  - destruct (vf_size_ok f pl v F P O) as (v' & E' & _). eauto.
  - intros x c HC. destruct (vf_call_ok f pl v x F O) as (v' & c' & E' & _ & HC').
    + destruct HC as (_ & _ & <-). rewrite map_length. auto.
    + rewrite (filled_unique _ _ _ _ _ F HC HC'). eauto.
Qed.

(** Such a coordinate exists for every argument sequence of the right length. *)
Lemma filled_exists : forall d pl x, fixing d pl -> length x = d - length pl -> exists c, filled d pl x c.
Proof.
  intros d pl x F L. destruct (write_free (free d pl) x (repeat 0 d)) as (b1 & E1 & L1 & H1).
  { apply free_NoDup. } { apply Forall_forall. intros i Hi. apply free_In in Hi. rewrite repeat_length. lia. } { rewrite free_length; auto. }
  rewrite repeat_length in L1. destruct F as [HS HB]. destruct (write_fixed pl b1) as (b2 & E2 & L2 & H2 & H3).
  { apply sorted_nodup'; auto. } { eapply Forall_impl; [|exact HB]. cbn. intros. lia. }
  exists b2. split; [lia|]. split; auto. rewrite <- H1. apply map_ext_in. intros i Hi. apply free_In in Hi. apply H3. apply Hi.
Qed.

(** The other views. *)
Variables mul add : T -> T -> T.
Variable neutral : T.
Theorem C21_view : forall f x, length x = length (fa_shape f) ->
  view_value T f x = Ret (fa_value f x) /\ view_dimension T f = length (fa_shape f) /\ view_size T f = size_of (fa_shape f) /\
  (forall (S : Type) (convert : T -> S -> S) invT, vc_call T S convert f invT x = Ret (convert (fa_value f x) invT)) /\
  forall i, i < length (fa_shape f) -> view_shape T f i = Ret (nth i (fa_shape f) 0).
Proof.
  intros f x L. unfold view_value, vc_call, fa_call, view_dimension, view_size, view_shape. rewrite (proj2 (Nat.eqb_eq _ _) L). split; auto. split; auto. split; auto. split; auto.
  intros i Hi. apply rd_nth. auto.
Qed.
Lemma fold_mul : forall (sh : list nat), fold_left (fun s i => s * nth i sh 0) (seq 0 (length sh)) 1 = size_of sh.
Proof.
  intros sh. assert (G : forall l s (n : nat), (forall i, i < length l -> nth (n + i) sh 0 = nth i l 0) -> fold_left (fun s i => s * nth i sh 0) (seq n (length l)) s = s * size_of l).
  { induction l as [|a l IH]; intros s n H; unfold size_of; cbn [length seq fold_left fold_right]; [lia|]. fold (size_of l).
    rewrite IH. { rewrite <- (Nat.add_0_r n) at 1. rewrite H by (cbn; lia). cbn [nth]. lia. }
    intros i Hi. specialize (H (Datatypes.S i)). cbn [length nth] in H. rewrite <- H by lia. f_equal. lia. }
  rewrite (G sh 1 0) by auto. lia.
Qed.
Theorem C21_scaled : forall f s x, length x = length (fa_shape f) ->
  sv_call T mul neutral (sv_new T f s) x = Ret (mul s (fa_value f x)) /\
  sv_shape T (sv_new T f s) = fa_shape f /\ sv_size T (sv_new T f s) = size_of (fa_shape f) /\
  (forall shape, sv_call T mul neutral (sv_new_shape T s shape) x = Ret neutral /\ sv_shape T (sv_new_shape T s shape) = shape /\ sv_size T (sv_new_shape T s shape) = size_of shape).
Proof.
  intros f s x L. unfold sv_new, sv_new_shape, sv_call, fa_call. cbn [sv_factor sv_scale sv_shape sv_size]. rewrite (proj2 (Nat.eqb_eq _ _) L). cbn [bind].
  split; auto. split; [|split; [apply fold_mul|intros shape; split; auto; split; auto; apply fold_mul]].
  apply (nth_ext _ _ 0 0); [rewrite map_length, seq_length; auto|]. intros i Hi. rewrite map_length, seq_length in Hi.
  rewrite (nth_indep _ 0 (nth 0 (fa_shape f) 0)) by (rewrite map_length, seq_length; auto). rewrite (map_nth (fun i => nth i (fa_shape f) 0)), seq_nth; auto.
Qed.
Theorem C21_modelview : forall f o s x, length x = length (fa_shape f) -> fa_shape o = fa_shape f ->
  mv_call T mul add (MvViewOffset T f s o) x = Ret (add (mul s (fa_value f x)) (fa_value o x)) /\
  mv_call T mul add (MvView T f s) x = Ret (mul s (fa_value f x)) /\ mv_call T mul add (MvOffset T o) x = Ret (fa_value o x) /\
  forall v, In v [MvViewOffset T f s o; MvView T f s; MvOffset T o] -> fa_shape (mv_array T v) = fa_shape f.
Proof.
  intros f o s x L E. unfold mv_call, fa_call. rewrite E, (proj2 (Nat.eqb_eq _ _) L). cbn [bind]. split; auto. split; auto. split; auto.
  intros v [<-|[<-|[<-|[]]]]; cbn; auto.
Qed.
End V.
Print Assumptions C21_fix.
Print Assumptions C21_view.
Print Assumptions C21_scaled.
Print Assumptions C21_modelview.

(** The hypotheses are met: fixing positions 1 and 3 of a factor with four variables. *)
Definition ex_f : facv nat := mkFacv [2; 3; 4; 2] (fun c => fold_left (fun a i => 10 * a + i) c 0).
Example C21_case : fixing (length (fa_shape ex_f)) [(1, 2); (3, 1)] /\ positive (fa_shape ex_f) /\ Forall (vlegal nat ex_f [(1, 2); (3, 1)]) [VCall [0; 0]; VSize] /\
  filled 4 [(1, 2); (3, 1)] [1; 3] [1; 2; 3; 1] /\
  (v <- vf_new ex_f [(1, 2); (3, 1)] ;; v <- foldM (vstep nat) [VCall [0; 0]; VSize] v ;; r <- vf_call v [1; 3] ;; s <- vf_size v ;; Ret (snd r, snd s)) = Ret (1231, 8).
Proof.
  split; [split; repeat constructor; cbn; lia|]. split; [repeat constructor; cbn; lia|]. split; [repeat constructor|]. split; [|vm_compute; reflexivity].
  split; [reflexivity|]. split; [|reflexivity]. intros p l [X|[X|[]]]; injection X as <- <-; reflexivity.
Qed.

(** Positions in another order select other coordinates: fixing 1 and then 0 of three variables, the remaining position
    is 2 but the view writes its argument to another position and leaves position 2 at its old content. *)
Theorem C21_fix_unsorted_refuted : exists (f : facv nat) pl x c v r, NoDup (map fst pl) /\ Forall (fun p => fst p < length (fa_shape f)) pl /\ filled (length (fa_shape f)) pl x c /\
  (v <- vf_new f pl ;; vf_call v x) = Ret (v, r) /\ r <> fa_value f c.
Proof.
  exists (mkFacv [2; 2; 2] (fun c => fold_left (fun a i => 10 * a + i) c 0)), [(1, 0); (0, 1)], [1], [1; 0; 1]. eexists. eexists.
  split; [repeat constructor; cbn; intuition lia|]. split; [repeat constructor; cbn; lia|]. split; [split; [reflexivity|split; [|reflexivity]]|].
  { intros p l [X|[X|[]]]; injection X as <- <-; reflexivity. }
  split; [vm_compute; reflexivity|]. vm_compute. lia.
Qed.
Print Assumptions C21_fix_unsorted_refuted.
