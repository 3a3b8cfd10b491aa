(** Proofs for the solver of the sub-models of TRWS: the storage, the parameters, and a step in it. *)
From Coq Require Import QArith Qcanon Permutation Lqa.
From Verif Require Import Base Values ShapeSpec MtProofs GmView GmViewSpec ConstraintModel ConstraintProofs DualDecompProofs HoeProofs FunctionBaseModel FunctionPredicateProps AStarSearch LpbModel LpbProofs PmModel PmProofs PmGraph TsModel TsSpec TsProofs.
Open Scope nat_scope.

Lemma foldM_steps : forall (A S : Type) (F : S -> A -> outcome S) (Q : nat -> S -> Prop) l k s, Q k s ->
  (forall i a s, k <= i -> i < k + length l -> Q i s -> exists t, F s a = Ret t /\ Q (Datatypes.S i) t) -> exists t, foldM F l s = Ret t /\ Q (k + length l) t.
Proof.
  induction l as [|a l IH]; intros k s Q0 H; cbn [foldM length].
  - exists s. rewrite Nat.add_0_r. auto.
  - destruct (H k a s) as (t & E & Q1); [lia|cbn; lia|auto|]. rewrite E. cbn [bind]. destruct (IH (Datatypes.S k) t Q1) as (t' & E' & Q2).
    + intros i b s' H1 H2 HQ. apply H; [lia|cbn in *; lia|auto].
    + exists t'. split; auto. replace (k + Datatypes.S (length l)) with (Datatypes.S k + length l) by lia. auto.
Qed.
Section Store.
Variable g : gmv Qc.
Hypothesis W : wf_gmv g.
Variable own : nat -> nat -> Qc.
Hypothesis O : owns g own.
Variables vars pws nums : list nat.
Hypothesis C : chain g vars pws.
Hypothesis U : Forall (has_own g) vars.
Hypothesis K : length nums = length vars.
Hypothesis KP : Forall (fun k => 0 < k) nums.
Notation n := (length vars).
Notation m := (length pws).
Notation v i := (nth i vars 0).
Definition L (i : nat) : nat := nth (v i) (v_labels g) 0.
Definition u (i l : nat) : Qc := (own (v i) l / Qc_of (nth i nums 0%nat))%Qc.
Definition P (i a b : nat) : Qc := pair_value g (nth i pws 0) (v i) a b.
Definition dirOf (i : nat) : bool := match nth_error (v_factors g) (nth i pws 0) with Some fc => nth 0 (fst fc) 0 =? v i | None => false end.

Lemma nm : n = S m. Proof. apply C. Qed.
Lemma fac_lt : forall fc, In fc (v_factors g) -> Forall (fun w => w < length (v_labels g)) (fst fc) /\ NoDup (fst fc).
Proof.
  intros fc I. destruct W as [F _]. rewrite Forall_forall in F. destruct (F fc I) as [S B]. split; auto. clear - S. induction S as [|a l S IH H]; constructor; auto. intros I. rewrite Forall_forall in H. specialize (H a I). lia.
Qed.
Lemma edge : forall i, i < m -> exists t, v i <> v (S i) /\ v i < length (v_labels g) /\ v (S i) < length (v_labels g) /\
  ((nth_error (v_factors g) (nth i pws 0) = Some ([v i; v (S i)], t) /\ dirOf i = true /\ forall a b, P i a b = t [a; b]) \/
   (nth_error (v_factors g) (nth i pws 0) = Some ([v (S i); v i], t) /\ dirOf i = false /\ forall a b, P i a b = t [b; a])).
Proof.
  intros i Hi. destruct C as [_ J]. destruct (J i Hi) as ((vis & t) & E & D). destruct (fac_lt _ (nth_error_In _ _ E)) as [B N]. exists t. unfold P, pair_value, dirOf. rewrite E. cbn [fst] in *.
  destruct D as [->| ->]; inversion N as [|? ? N1 N2]; subst; inversion B as [|? ? B1 B2]; subst; inversion B2 as [|? ? B3 _]; subst.
  - assert (D : v i <> v (S i)) by (intros X; apply N1; left; auto). repeat split; auto. left. split; auto. split; [apply Nat.eqb_refl|]. intros a b. cbn [map]. rewrite Nat.eqb_refl. destruct (Nat.eqb_spec (v (S i)) (v i)); [congruence|reflexivity].
  - assert (D : v i <> v (S i)) by (intros X; apply N1; left; auto). repeat split; auto. right. split; auto. cbn [nth]. destruct (Nat.eqb_spec (v (S i)) (v i)); [congruence|]. split; auto. intros a b. cbn [map]. rewrite Nat.eqb_refl. destruct (Nat.eqb_spec (v (S i)) (v i)); [congruence|reflexivity].
Qed.
Lemma L_pos : forall i, i < n -> 0 < L i.
Proof.
  intros i Hi. rewrite Forall_forall in U. destruct (U (v i) (nth_In _ _ Hi)) as [H _]. destruct W as [_ Q]. unfold positive in Q. rewrite Forall_forall in Q. apply Q. unfold L. apply nth_In. auto.
Qed.

Definition ST : store := mkStore vars pws (map (fun i => map (u i) (seq 0 (L i))) (seq 0 n)) (map dirOf (seq 0 m)).
Lemma check_ok : ts_check g vars pws = Ret (map dirOf (seq 0 m)).
Proof.
  unfold ts_check. rewrite nm. cbn [Nat.eqb orb]. replace (S m - 1) with m by lia. rewrite Nat.eqb_refl. cbn [negb]. apply mapM_all. intros i Hi. apply in_seq in Hi.
  rewrite (rd_nth _ pws i 0) by lia. cbn [bind]. destruct (edge i ltac:(lia)) as (t & D & _ & _ & [(E & ED & _)|(E & ED & _)]); rewrite (rd_Ret _ _ _ _ E); cbn [bind]; change (length [v i; v (S i)] =? 2) with true; change (length [v (S i); v i] =? 2) with true; cbv iota;
    [change (rd [v i; v (S i)] 0) with (Ret (v i)); change (rd [v i; v (S i)] 1) with (Ret (v (S i)))|change (rd [v (S i); v i] 0) with (Ret (v (S i))); change (rd [v (S i); v i] 1) with (Ret (v i))]; cbn [bind];
    rewrite (rd_nth _ vars i 0) by (rewrite nm; lia); rewrite (rd_nth _ vars (S i) 0) by (rewrite nm; lia); cbn [bind]; rewrite ED, ?Nat.eqb_refl; auto.
  destruct (Nat.eqb_spec (v (S i)) (v i)); [congruence|]. reflexivity.
Qed.
Lemma new_ok : ts_new g vars pws nums = Ret ST.
Proof.
  unfold ts_new. rewrite check_ok. cbn [bind]. destruct (mapping_ok g W) as (mp & E & LM & M). rewrite E. cbn [bind]. rewrite (mapM_all _ _ _ (fun i => map (u i) (seq 0 (L i)))); [reflexivity|]. intros i Hi. apply in_seq in Hi.
  rewrite (rd_nth _ vars i 0) by lia. rewrite (rd_nth _ nums i 0) by lia. cbn [bind]. unfold ts_unary. rewrite Forall_forall in U. destruct (U (v i)) as [HV (t & It)]; [apply nth_In; lia|]. rewrite (rd_nth _ mp (v i) None) by lia. cbn [bind]. specialize (M (v i) HV).
  destruct (nth (v i) mp None) as [f|].
  - destruct M as ((vis & t') & NE & EV). cbn in EV. subst vis. rewrite (rd_Ret _ _ _ _ NE). cbn [bind]. rewrite (rd_nth _ (v_labels g) _ 0) by lia. cbn [bind]. rewrite Forall_forall in KP. assert (0 < nth i nums 0) by (apply KP; apply nth_In; lia). destruct (Nat.eqb_spec (nth i nums 0) 0); [lia|].
    f_equal. apply map_ext. intros l. unfold u, Qcdiv. f_equal. apply (O (v i) ([v i], t') l); auto. eapply nth_error_In; eauto.
  - exfalso. apply In_nth_error in It as (f & Ef). apply (M f _ Ef). reflexivity.
Qed.

Definition par_ok (ps : list (option (Qc * Qc))) : Prop := length ps = length (v_factors g) /\
  forall f a b t p0 p1, nth_error (v_factors g) f = Some ([a; b], t) -> nth f ps None = Some (p0, p1) -> forall x y, x < nth a (v_labels g) 0 -> y < nth b (v_labels g) 0 -> t [x; y] = pcost p0 p1 x y.
Definition par_of (fc : list nat * (list nat -> Qc)) : option (Qc * Qc) :=
  match (if length (fst fc) =? 2 then b <- pm_isPotts g fc ;; if b then p <- ts_potts g fc ;; Ret (Some p) else Ret None else Ret None) with Ret o => o | _ => None end.
Lemma par_fac : forall fc, In fc (v_factors g) -> (if length (fst fc) =? 2 then b <- pm_isPotts g fc ;; if b then p <- ts_potts g fc ;; Ret (Some p) else Ret None else Ret None) = Ret (par_of fc) /\
  forall a b p0 p1, fst fc = [a; b] -> par_of fc = Some (p0, p1) -> forall x y, x < nth a (v_labels g) 0 -> y < nth b (v_labels g) 0 -> snd fc [x; y] = pcost p0 p1 x y.
Proof.
  clear KP K U C O. intros fc I. unfold par_of. destruct (Nat.eqb_spec (length (fst fc)) 2) as [L2|L2]; [|split; auto; intros; discriminate]. destruct fc as [vis t]. cbn [fst snd] in *. destruct (fac_lt _ I) as [B N]. cbn [fst] in *.
  destruct vis as [|a [|b [|]]]; try discriminate L2. inversion B as [|? ? B1 B2]; subst. inversion B2 as [|? ? B3 _]; subst.
  assert (PO : forall w, w < length (v_labels g) -> 0 < nth w (v_labels g) 0). { intros w Hw. destruct W as [_ Q]. unfold positive in Q. rewrite Forall_forall in Q. apply Q. apply nth_In. exact Hw. }
  pose proof (PO a B1) as PA. pose proof (PO b B3) as PB. unfold pm_isPotts. cbn [fst snd mapM]. rewrite (rd_nth _ (v_labels g) a 0), (rd_nth _ (v_labels g) b 0) by lia. cbn [bind].
  set (na := nth a (v_labels g) 0) in *. set (nb := nth b (v_labels g) 0) in *.
  destruct (C24_isPotts Qc Qc_eq_bool (mkG [na; nb] (fun c => Ret (t c))) t Qc_eq_bool_iff) as (r & ER & PR).
  - split; [|intros c _; reflexivity]. cbn [gf_shape]. constructor; [lia|]. constructor; [lia|constructor].
  - cbn. discriminate.
  - rewrite ER. cbn [bind]. destruct r; [|split; auto; intros; discriminate]. unfold ts_potts. cbn [fst snd]. change (rd [a; b] 0) with (Ret a). change (rd [a; b] 1) with (Ret b). cbn [bind]. rewrite (rd_nth _ (v_labels g) a 0), (rd_nth _ (v_labels g) b 0) by lia. cbn [bind]. fold na nb.
    split; auto. intros a' b' p0 p1 [= <- <-] [= <- <-] x y Hx Hy. fold na in Hx. fold nb in Hy. destruct PR as [PR _]. destruct (PR eq_refl) as (e & k & F). cbn [gf_shape] in F.
    assert (IS : forall x y, x < na -> y < nb -> in_shape [na; nb] [x; y]) by (intros; constructor; [auto|constructor; [auto|constructor]]).
    assert (EQ : forall p q, all_labels_equal [p; q] <-> p = q). { intros p q. unfold all_labels_equal. split; [intros H; apply (H 0 1); cbn; lia|]. intros -> [|[|i]] [|[|j]] Hi Hj; cbn in *; lia || reflexivity. }
    assert (V : forall x y, x < na -> y < nb -> t [x; y] = if x =? y then e else k). { intros x' y' X Y. destruct (F _ (IS x' y' X Y)) as [F1 F2]. rewrite EQ in F1, F2. destruct (Nat.eqb_spec x' y'); auto. }
    assert (A0 : (0 <? na) = true) by (apply Nat.ltb_lt; auto). assert (B0 : (0 <? nb) = true) by (apply Nat.ltb_lt; auto). rewrite A0, B0. cbn [andb]. unfold pcost. rewrite (V x y) by auto. rewrite (V 0 0) by auto. change (0 =? 0) with true. cbv iota.
    destruct (Nat.eqb_spec x y) as [->|D]; [ring|]. destruct (Nat.ltb_spec 1 na) as [H1|H1].
    + rewrite (V 1 0) by auto. change (1 =? 0) with false. cbv iota. ring.
    + destruct (Nat.ltb_spec 1 nb) as [H2|H2]; [|lia]. rewrite (V 0 1) by auto. change (0 =? 1) with false. cbv iota. ring.
Qed.
Lemma params_ok : exists ps, ts_params g = Ret ps /\ par_ok ps.
Proof.
  clear KP K U C O. exists (map par_of (v_factors g)). split.
  - unfold ts_params. apply mapM_all. intros fc I. apply par_fac. exact I.
  - split; [apply map_length|]. intros f a b t p0 p1 E Ep x y Hx Hy. assert (Hf : f < length (v_factors g)) by (apply nth_error_Some; congruence).
    rewrite (nth_map_lt _ _ _ _ f ([], fun _ => 0%Qc)) in Ep by auto. rewrite (nth_error_nth _ _ _ E) in Ep. destruct (par_fac ([a; b], t) (nth_error_In _ _ E)) as [_ H]. apply (H a b p0 p1); auto.
Qed.

(** The positions of a sequence in the order of a direction, and the costs of a step *)
Definition pos (d : bool) (p : nat) : nat := if d then p else m - p.
Definition ek (d : bool) (p : nat) : nat := if d then p else m - 1 - p.
Definition qd (d : bool) (p x y : nat) : Qc := if d then P p x y else P (m - 1 - p) y x.
Lemma ek_lt : forall d p, p < m -> ek d p < m. Proof. intros [|] p H; unfold ek; lia. Qed.
Lemma pos_lt : forall d p, p <= m -> pos d p < n. Proof. intros [|] p H; unfold pos; rewrite nm; lia. Qed.
Lemma pos_inj : forall d p q, p <= m -> q <= m -> pos d p = pos d q -> p = q. Proof. intros [|] p q; unfold pos; lia. Qed.
Lemma qd_negb : forall d p x y, p < m -> qd (negb d) (m - 1 - p) y x = qd d p x y.
Proof. intros [|] p x y H; cbn [negb]; unfold qd; auto. f_equal. lia. Qed.
Lemma pos_negb : forall d p, p <= m -> pos (negb d) (m - p) = pos d p. Proof. intros [|] p H; cbn [negb]; unfold pos; lia. Qed.
Lemma rd_un : forall i, i < n -> rd (st_un ST) i = Ret (map (u i) (seq 0 (L i))).
Proof. intros i H. rewrite (rd_nth _ _ i []) by (cbn; rewrite map_length, seq_length; auto). cbn [st_un ST]. rewrite (nth_map_lt _ _ _ _ i 0) by (rewrite seq_length; auto). rewrite seq_nth by auto. reflexivity. Qed.
Lemma nth_un : forall i l, l < L i -> nth l (map (u i) (seq 0 (L i))) 0%Qc = u i l.
Proof. intros i l H. rewrite (nth_map_lt _ _ _ _ l 0) by (rewrite seq_length; auto). rewrite seq_nth by auto. reflexivity. Qed.

Lemma pcost_sym : forall p0 p1 x y, pcost p0 p1 x y = pcost p0 p1 y x.
Proof. intros. unfold pcost. rewrite (Nat.eqb_sym x y). reflexivity. Qed.
Lemma qd_params : forall ps d p p0 p1 x y, par_ok ps -> p < m -> nth (nth (ek d p) pws 0) ps None = Some (p0, p1) -> x < L (pos d p) -> y < L (pos d (S p)) -> qd d p x y = pcost p0 p1 x y.
Proof.
  intros ps d p p0 p1 x y [_ PO] Hp E Hx Hy. destruct (edge (ek d p) (ek_lt d p Hp)) as (t & _ & _ & _ & [(EF & _ & EP)|(EF & _ & EP)]); specialize (PO _ _ _ _ _ _ EF E); unfold qd; destruct d; unfold ek, pos in *.
  - rewrite EP. apply PO; auto.
  - rewrite EP. rewrite pcost_sym. apply PO; [replace (m - 1 - p) with (m - S p) by lia; auto|replace (S (m - 1 - p)) with (m - p) by lia; auto].
  - rewrite EP. rewrite pcost_sym. apply PO; auto.
  - rewrite EP. apply PO; [replace (S (m - 1 - p)) with (m - p) by lia; auto|replace (m - 1 - p) with (m - S p) by lia; auto].
Qed.

(** evaluate, when all factors have the variables in the order of the sequence *)
Lemma evaluate_ok : forall y, (forall i, i < m -> dirOf i = true) -> chain_labeling g vars y -> ts_evaluate g ST y = Ret (chain_energy g own vars pws nums y).
Proof.
  intros y DT [LY VY]. unfold ts_evaluate. cbn [st_vars ST].
  set (Q := fun (i : nat) (e : Qc) => e = (qsum (fun i => u i (nth i y 0%nat)) (seq 0 i) + qsum (fun i => P i (nth i y 0%nat) (nth (S i) y 0%nat)) (seq 0 (Nat.min i m)))%Qc).
  assert (G : forall k, k <= n -> exists e, foldM (fun value i =>
    uu <- rd (st_un ST) i ;; l <- rd y i ;; q <- rd uu l ;; let value := (value + q)%Qc in
    if i <? n - 1 then
      d <- rd (st_dir ST) i ;; f <- rd (st_pw ST) i ;; ' (_, t) <- rd (v_factors g) f ;; l' <- rd y (S i) ;;
      if d : bool then Ret (value + t [l; l'])%Qc else Ret (value + t [l; l'])%Qc
    else Ret value) (seq 0 k) 0%Qc = Ret e /\ Q k e).
  { induction k as [|k IH]; intros Hk.
    - exists 0%Qc. split; [reflexivity|]. unfold Q. cbn [Nat.min seq]. rewrite !qsum_nil. ring.
    - destruct IH as (e & E & QE); [lia|]. rewrite seq_S, foldM_app, E. cbn [bind plus foldM]. rewrite rd_un by lia. cbn [bind]. rewrite (rd_nth _ y k 0) by lia. cbn [bind]. pose proof (VY k ltac:(lia)) as V. fold (L k) in V. rewrite (rd_nth _ _ _ 0%Qc) by (rewrite map_length, seq_length; auto). cbn [bind]. rewrite nth_un by auto. cbv zeta.
      destruct (Nat.ltb_spec k (n - 1)) as [H|H].
      + rewrite nm in H. cbn [st_dir st_pw ST]. rewrite (rd_nth _ _ k true) by (rewrite map_length, seq_length; lia). rewrite (rd_nth _ pws k 0) by lia. cbn [bind]. rewrite (nth_map_lt _ _ _ _ k 0) by (rewrite seq_length; lia). rewrite seq_nth by lia. cbn [plus].
        destruct (edge k ltac:(lia)) as (t & _ & _ & _ & [(EF & _ & EP)|(_ & ED & _)]); [|rewrite DT in ED by lia; discriminate]. rewrite (rd_Ret _ _ _ _ EF). cbn [bind]. rewrite (rd_nth _ y (S k) 0) by (rewrite LY, nm; lia). cbn [bind]. rewrite DT by lia. eexists. split; [reflexivity|].
        unfold Q in *. rewrite QE. replace (Nat.min (S k) m) with (S k) by lia. replace (Nat.min k m) with k by lia. rewrite !seq_S, !DualDecompProofs.qsum_app. cbn [plus]. rewrite !qsum_cons, !qsum_nil. rewrite EP. ring.
      + rewrite nm in H, Hk. eexists. split; [reflexivity|]. unfold Q in *. rewrite QE. replace (Nat.min (S k) m) with m by lia. replace (Nat.min k m) with m by lia. rewrite !seq_S, !DualDecompProofs.qsum_app. cbn [plus]. rewrite !qsum_cons, !qsum_nil. ring. }
  destruct (G n (le_n n)) as (e & E & QE). etransitivity; [exact E|]. f_equal. unfold Q in QE. rewrite QE. replace (Nat.min n m) with m by (rewrite nm; lia). reflexivity.
Qed.

Section Run.
Variable ps : list (option (Qc * Qc)).
Hypothesis PS : par_ok ps.
Variable fast : bool.

Lemma push_ok : forall d p cur, p < m -> length cur = L (pos d p) -> exists c, ts_push g ST ps fast d (pos d p) cur = Ret (pos d (S p), c) /\ length c = L (pos d (S p)) /\
  forall y, y < L (pos d (S p)) -> ismin (L (pos d p)) (fun x => nth x cur 0 + qd d p x y)%Qc (nth y c 0 - u (pos d (S p)) y)%Qc.
Proof.
  intros d p cur Hp LC. unfold ts_push. pose proof (ek_lt d p Hp) as HE. pose proof (pos_lt d p ltac:(lia)) as H1. pose proof (pos_lt d (S p) ltac:(lia)) as H2.
  assert (E1 : ts_pwIndex d (pos d p) = Ret (ek d p)). { destruct d; unfold ts_pwIndex, pos, ek; auto. destruct (Nat.eqb_spec (m - p) 0); [lia|]. f_equal. lia. }
  assert (E2 : ts_next d (pos d p) = Ret (pos d (S p))). { destruct d; unfold ts_next, pos; auto. destruct (Nat.eqb_spec (m - p) 0); [lia|]. f_equal. lia. }
  rewrite E1. cbn [bind st_pw ST]. rewrite (rd_nth _ pws _ 0) by auto. cbn [bind]. pose proof (L_pos (pos d p) H1) as LP.
  destruct (edge (ek d p) HE) as (t & _ & _ & _ & EC). set (f := nth (ek d p) pws 0) in *.
  assert (EF : exists vis, nth_error (v_factors g) f = Some (vis, t)) by (destruct EC as [(EF & _)|(EF & _)]; eauto). destruct EF as (vis & EF).
  assert (HF : f < length ps) by (rewrite (proj1 PS); apply nth_error_Some; congruence). rewrite (rd_nth _ ps f None) by auto. cbn [bind]. rewrite E2. cbn [bind]. rewrite rd_un by auto. cbn [bind]. rewrite map_length, seq_length.
  assert (GEN : exists c, (' (_, t) <- rd (v_factors g) f ;; dk <- rd (st_dir ST) (ek d p) ;;
    let pw := fun s e => if Bool.eqb d dk then t [s; e] else t [e; s] in
    c <- mapM (fun y =>
           l <- mapM (fun x => a <- rd cur x ;; Ret (pw x y + a)%Qc) (seq 0 (length cur)) ;;
           ' (_, b) <- ts_best l ;; u <- rd (map (u (pos d (S p))) (seq 0 (L (pos d (S p))))) y ;; Ret (u + b)%Qc) (seq 0 (L (pos d (S p)))) ;;
    Ret (pos d (S p), c)) = Ret (pos d (S p), c) /\ length c = L (pos d (S p)) /\
    forall y, y < L (pos d (S p)) -> ismin (L (pos d p)) (fun x => nth x cur 0 + qd d p x y)%Qc (nth y c 0 - u (pos d (S p)) y)%Qc).
  { rewrite (rd_Ret _ _ _ _ EF). cbn [bind]. cbn [st_dir ST]. rewrite (rd_nth _ _ (ek d p) true) by (rewrite map_length, seq_length; auto). cbn [bind]. rewrite (nth_map_lt _ _ _ _ (ek d p) 0) by (rewrite seq_length; auto). rewrite seq_nth by auto. cbn [plus].
    assert (PW : forall x y, (if Bool.eqb d (dirOf (ek d p)) then t [x; y] else t [y; x]) = qd d p x y).
    { intros x y. unfold qd. destruct EC as [(_ & ED & EP)|(_ & ED & EP)]; rewrite ED; destruct d; cbn [Bool.eqb]; unfold ek in EP; rewrite EP; reflexivity. }
    set (row := fun y => map (fun x => qd d p x y + nth x cur 0)%Qc (seq 0 (length cur))).
    assert (LR : forall y, length (row y) = length cur) by (intros; unfold row; rewrite map_length, seq_length; auto).
    assert (NR : forall y x, x < length cur -> nth x (row y) 0%Qc = (qd d p x y + nth x cur 0)%Qc). { intros y x Hx. unfold row. rewrite (nth_map_lt _ _ _ _ x 0) by (rewrite seq_length; auto). rewrite seq_nth by auto. reflexivity. }
    set (h := fun y => match ts_best (row y) with Ret (_, b) => (u (pos d (S p)) y + b)%Qc | _ => 0%Qc end).
    rewrite (mapM_all _ _ _ h).
    - cbn [bind]. eexists. split; [reflexivity|]. split; [rewrite map_length, seq_length; auto|]. intros y Hy. rewrite (nth_map_lt _ _ _ _ y 0) by (rewrite seq_length; auto). rewrite seq_nth by auto. cbn [plus]. unfold h.
      destruct (best_ok (row y)) as (b & vb & EB & Hb & Vb & Mb); [rewrite LR; lia|]. rewrite EB. rewrite LR in Hb, Mb. replace (u (pos d (S p)) y + vb - u (pos d (S p)) y)%Qc with vb by ring. split.
      + intros x Hx. specialize (Mb x ltac:(lia)). rewrite NR in Mb by lia. rewrite Qcplus_comm. exact Mb.
      + exists b. split; [lia|]. rewrite Vb, NR by lia. ring.
    - intros y Hy. apply in_seq in Hy. cbn zeta. rewrite (mapM_all _ _ _ (fun x => qd d p x y + nth x cur 0)%Qc).
      + cbn [bind]. fold (row y). unfold h. destruct (best_ok (row y)) as (b & vb & EB & _); [rewrite LR; lia|]. rewrite EB. cbn [bind]. rewrite (rd_nth _ _ y 0%Qc) by (rewrite map_length, seq_length; lia). cbn [bind]. rewrite nth_un by lia. reflexivity.
      + intros x Hx. apply in_seq in Hx. rewrite (rd_nth _ cur x 0%Qc) by lia. cbn [bind]. rewrite PW. reflexivity. }
  destruct fast; [|exact GEN]. destruct (nth f ps None) as [[p0 p1]|] eqn:EP; [|exact GEN]. clear GEN.
  destruct (transform_ok cur (L (pos d (S p))) p0 p1) as (c & ET & LT & MT); [lia|]. rewrite ET. cbn [bind]. rewrite LT.
  rewrite (mapM_all _ _ _ (fun y => nth y c 0 + u (pos d (S p)) y)%Qc).
  - cbn [bind]. eexists. split; [reflexivity|]. split; [rewrite map_length, seq_length; auto|]. intros y Hy. rewrite (nth_map_lt _ _ _ _ y 0) by (rewrite seq_length; auto). rewrite seq_nth by auto. cbn [plus].
    replace (nth y c 0 + u (pos d (S p)) y - u (pos d (S p)) y)%Qc with (nth y c 0%Qc) by ring. specialize (MT y Hy). rewrite LC in MT. eapply ismin_ext; [|exact MT]. intros x Hx. cbn beta. f_equal. symmetry. eapply qd_params; eauto.
  - intros y Hy. apply in_seq in Hy. rewrite (rd_nth _ c y 0%Qc) by lia. cbn [bind]. rewrite (rd_nth _ _ y 0%Qc) by (rewrite map_length, seq_length; lia). cbn [bind]. rewrite nth_un by lia. reflexivity.
Qed.

Lemma backward_ok : forall d p w opt, p < m -> length w = L (pos d p) -> opt < L (pos d (S p)) -> exists w' k, ts_backward g ST ps fast (negb d) (pos d p) w opt = Ret w' /\ length w' = length w /\
  forall x, x < length w -> nth x w' 0%Qc = (nth x w 0 + qd d p x opt + k)%Qc.
Proof.
  intros d p w opt Hp LW Ho. unfold ts_backward. pose proof (ek_lt d p Hp) as HE. pose proof (pos_lt d p ltac:(lia)) as H1.
  assert (E1 : (if negb d then if pos d p =? 0 then Undef else Ret (pos d p - 1) else if pos d p =? length (st_vars ST) - 1 then Undef else Ret (pos d p)) = Ret (ek d p)).
  { cbn [st_vars ST]. rewrite nm. destruct d; cbn [negb]; unfold pos, ek; [destruct (Nat.eqb_spec p (S m - 1)); [lia|auto]|destruct (Nat.eqb_spec (m - p) 0); [lia|f_equal; lia]]. }
  rewrite E1. cbn [bind st_pw ST]. rewrite (rd_nth _ pws _ 0) by auto. cbn [bind]. destruct (edge (ek d p) HE) as (t & DV & _ & _ & EC). set (f := nth (ek d p) pws 0) in *.
  assert (EF : exists vis, nth_error (v_factors g) f = Some (vis, t)) by (destruct EC as [(EF & _)|(EF & _)]; eauto). destruct EF as (vis & EF).
  assert (HF : f < length ps) by (rewrite (proj1 PS); apply nth_error_Some; congruence). rewrite (rd_nth _ ps f None) by auto. cbn [bind].
  assert (GEN : exists w' k, (' (vis, t) <- rd (v_factors g) f ;; v <- rd (st_vars ST) (pos d p) ;; v0 <- rd vis 0 ;;
    mapM (fun j => a <- rd w j ;; Ret (a + (if (v =? v0)%nat then t [j; opt] else t [opt; j]))%Qc) (seq 0 (length w))) = Ret w' /\ length w' = length w /\ forall x, x < length w -> nth x w' 0%Qc = (nth x w 0 + qd d p x opt + k)%Qc).
  { rewrite (rd_Ret _ _ _ _ EF). cbn [bind st_vars ST]. rewrite (rd_nth _ vars _ 0) by auto. cbn [bind].
    assert (V0 : exists v0, rd vis 0 = Ret v0 /\ forall j, (if v (pos d p) =? v0 then t [j; opt] else t [opt; j]) = qd d p j opt).
    { unfold qd. destruct EC as [(EF' & _ & EP)|(EF' & _ & EP)]; rewrite EF in EF'; injection EF' as ->; (eexists; split; [reflexivity|]); intros j; destruct d; unfold ek, pos in *; rewrite EP.
      - rewrite Nat.eqb_refl. reflexivity.
      - replace (m - p) with (S (m - 1 - p)) by lia. destruct (Nat.eqb_spec (v (S (m - 1 - p))) (v (m - 1 - p))); [congruence|reflexivity].
      - destruct (Nat.eqb_spec (v p) (v (S p))); [congruence|reflexivity].
      - replace (m - p) with (S (m - 1 - p)) by lia. rewrite Nat.eqb_refl. reflexivity. }
    destruct V0 as (v0 & E0 & HV). rewrite E0. cbn [bind]. rewrite (mapM_all _ _ _ (fun x => nth x w 0 + qd d p x opt)%Qc).
    - eexists. exists 0%Qc. split; [reflexivity|]. split; [rewrite map_length, seq_length; auto|]. intros x Hx. rewrite (nth_map_lt _ _ _ _ x 0) by (rewrite seq_length; auto). rewrite seq_nth by auto. cbn [plus]. ring.
    - intros x Hx. apply in_seq in Hx. rewrite (rd_nth _ w x 0%Qc) by lia. cbn [bind]. rewrite HV. reflexivity. }
  destruct fast; [|exact GEN]. destruct (nth f ps None) as [[p0 p1]|] eqn:EP; [|exact GEN]. clear GEN.
  assert (Q : forall x, x < length w -> qd d p x opt = pcost p0 p1 x opt) by (intros x Hx; eapply qd_params; eauto; lia).
  destruct (Nat.ltb_spec opt (length w)) as [Hl|Hl].
  - rewrite (rd_nth _ w opt 0%Qc) by auto. cbn [bind]. rewrite wr_Ret by auto. eexists. exists (- (p1 + p0))%Qc. split; [reflexivity|]. split; [apply length_upd|]. intros x Hx. rewrite Q by auto. unfold pcost. destruct (Nat.eqb_spec x opt) as [->|D].
    + rewrite nth_upd_eq by auto. ring.
    + rewrite nth_upd_neq by auto. ring.
  - exists w, (- (p1 + p0))%Qc. split; auto. split; auto. intros x Hx. rewrite Q by auto. unfold pcost. destruct (Nat.eqb_spec x opt) as [->|D]; [lia|]. ring.
Qed.

(** The energy of the first steps of a direction; y is the label of every step *)
Fixpoint pe (d : bool) (p : nat) (y : nat -> nat) : Qc :=
  match p with
  | 0 => u (pos d 0) (y 0%nat)
  | S p => (pe d p y + qd d p (y p) (y (S p)) + u (pos d (S p)) (y (S p)))%Qc
  end.
Lemma pe_ext : forall d p y z, (forall q, q <= p -> y q = z q) -> pe d p y = pe d p z.
Proof. induction p as [|p IH]; intros y z H; cbn [pe]; [rewrite H; auto|]. rewrite (IH y z), (H p), (H (S p)) by auto. reflexivity. Qed.
Lemma pe_split : forall d (y : nat -> nat) k q, k + q = m -> (pe (negb d) k (fun r => y (m - r)%nat) + pe d q y - u (pos d q) (y q))%Qc = pe d m y.
Proof.
  induction k as [|k IH]; intros q H.
  - cbn [plus] in H. subst q. cbn [pe]. pose proof (pos_negb d m (le_n m)) as PN. rewrite Nat.sub_diag in PN. rewrite PN. replace (m - 0) with m by lia. ring.
  - rewrite <- (IH (S q)) by lia. cbn [pe]. replace (m - k) with (S q) by lia. replace (m - S k) with q by lia.
    pose proof (qd_negb d q (y q) (y (S q)) ltac:(lia)) as Q. replace (m - 1 - q) with k in Q by lia. rewrite Q. pose proof (pos_negb d q ltac:(lia)) as PN. replace (m - q) with (S k) in PN by lia. rewrite PN. ring.
Qed.
Lemma pe_sums : forall d p y, pe d p y = (qsum (fun q => u (pos d q) (y q)) (seq 0 (S p)) + qsum (fun q => qd d q (y q) (y (S q))) (seq 0 p))%Qc.
Proof.
  induction p as [|p IH]; intros y; [cbn; ring|]. cbn [pe]. rewrite IH. rewrite (seq_S (S p) 0), (seq_S p 0). rewrite !DualDecompProofs.qsum_app. cbn [plus]. rewrite !qsum_cons, !qsum_nil. ring.
Qed.
Lemma energy_pe : forall d y, chain_energy g own vars pws nums y = pe d m (fun q => nth (pos d q) y 0).
Proof.
  assert (T : forall y, chain_energy g own vars pws nums y = pe true m (fun q => nth (pos true q) y 0)).
  { intros y. rewrite pe_sums. unfold chain_energy. rewrite nm. reflexivity. }
  intros [|] y; [apply T|]. rewrite T. pose proof (pe_split false (fun q => nth (pos false q) y 0) m 0 ltac:(lia)) as S. cbn [pe negb] in S. rewrite <- S.
  transitivity (pe true m (fun r => nth (pos false (m - r)) y 0)); [|ring]. apply pe_ext. intros q Hq. unfold pos. f_equal. lia.
Qed.

(** The buffers of a pass in a direction *)
Definition tr (d : bool) (p : nat) (M : nat -> list Qc) : Prop :=
  (forall q, q <= p -> length (M q) = L (pos d q)) /\ (forall l, l < L (pos d 0) -> nth l (M 0) 0%Qc = u (pos d 0) l) /\ forall q, q < p -> forall y, y < L (pos d (S q)) -> ismin (L (pos d q)) (fun x => nth x (M q) 0 + qd d q x y)%Qc (nth y (M (S q)) 0 - u (pos d (S q)) y)%Qc.
Lemma tr_ext : forall d p M N, (forall q, q <= p -> M q = N q) -> tr d p M -> tr d p N.
Proof.
  intros d p M N E (A & B & D). split; [|split].
  - intros q Hq. rewrite <- E by auto. auto.
  - rewrite <- E by lia. auto.
  - intros q Hq. rewrite <- !E by lia. auto.
Qed.
Lemma tr_low : forall d p M y, tr d p M -> p <= m -> (forall q, q <= p -> y q < L (pos d q)) -> (nth (y p) (M p) 0 <= pe d p y)%Qc.
Proof.
  intros d p M y (_ & B & D) _. induction p as [|p IH]; intros V; cbn [pe].
  - rewrite B by auto. apply Qcle_refl.
  - assert (I : (nth (y p) (M p) 0 <= pe d p y)%Qc) by (apply IH; auto). destruct (D p ltac:(lia) (y (S p)) ltac:(auto)) as [X _]. specialize (X (y p) ltac:(auto)). cbn beta in X. ql.
Qed.
(** Labels that are best in turn have the energy of the last buffer. *)
Lemma tr_back : forall d p M y, tr d p M -> (forall q, q <= p -> y q < L (pos d q)) ->
  (forall q, q < p -> forall x, x < L (pos d q) -> (nth (y q) (M q) 0 + qd d q (y q) (y (S q)) <= nth x (M q) 0 + qd d q x (y (S q)))%Qc) -> pe d p y = nth (y p) (M p) 0%Qc.
Proof.
  intros d p M y (_ & B & D). induction p as [|p IH]; intros V A; cbn [pe].
  - rewrite B by auto. reflexivity.
  - rewrite IH; auto. destruct (D p ltac:(lia) (y (S p)) ltac:(auto)) as [X (x & Hx & EX)]. pose proof (X (y p) ltac:(auto)) as X1. pose proof (A p ltac:(lia) x Hx) as X2. cbn beta in X1. rewrite EX in X1.
    assert (E : (nth (y p) (M p) 0 + qd d p (y p) (y (S p)))%Qc = (nth x (M p) 0 + qd d p x (y (S p)))%Qc) by (apply Qcle_antisym; auto). rewrite E, <- EX. ring.
Qed.
Lemma tr_exists : forall d p M b, tr d p M -> b < L (pos d p) -> exists y, y p = b /\ (forall q, q <= p -> y q < L (pos d q)) /\ pe d p y = nth b (M p) 0%Qc.
Proof.
  intros d p M b (T1 & B & D). revert b. induction p as [|p IH]; intros b Hb.
  - exists (fun _ => b). split; auto. split; [intros q Hq; replace q with 0 by lia; auto|]. cbn. rewrite B; auto.
  - destruct (D p ltac:(lia) b Hb) as [_ (x & Hx & EX)]. destruct (IH ltac:(auto) ltac:(auto) x Hx) as (y & Y1 & Y2 & Y3). exists (fun q => if q =? S p then b else y q). rewrite Nat.eqb_refl. split; auto. split.
    + intros q Hq. destruct (Nat.eqb_spec q (S p)) as [->|]; auto. apply Y2. lia.
    + cbn [pe]. rewrite Nat.eqb_refl. destruct (Nat.eqb_spec p (S p)); [lia|]. rewrite (pe_ext d p _ y). 2: { intros q Hq. destruct (Nat.eqb_spec q (S p)); [lia|auto]. }
      rewrite Y3, Y1, <- EX. ring.
Qed.

(** The state of a solver in a pass *)
Definition fits (s : solver) : Prop := length (so_marg s) = n /\ length (so_lab s) = n.
Definition mg (d : bool) (s : solver) (q : nat) : list Qc := nth (pos d q) (so_marg s) [].
Definition at_step (d : bool) (p : nat) (s : solver) : Prop := fits s /\ so_dir s = d /\ so_need s = false /\ so_idx s = pos d p /\ so_cur s = mg d s p /\ tr d p (mg d s).
Definition idle (s : solver) : Prop := fits s /\ (so_need s = true \/ exists d, at_step d 0 s).

Lemma start_pos : forall d : bool, (if d then 0 else length (st_vars ST) - 1) = pos d 0.
Proof. intros [|]; unfold pos; cbn [st_vars ST]; auto. rewrite nm. lia. Qed.
Lemma init_ok : forall d s, fits s -> exists s', ts_init ST d s = Ret s' /\ at_step d 0 s'.
Proof.
  intros d s [F1 F2]. unfold ts_init, ts_coreInit. cbv zeta. rewrite start_pos. pose proof (pos_lt d 0 ltac:(lia)) as HP. rewrite rd_un by auto. cbn [bind]. unfold ts_update. cbn [so_marg so_idx so_cur so_dir so_need so_lab so_obj]. rewrite wr_Ret by lia. cbn [bind]. eexists. split; [reflexivity|].
  unfold at_step, fits, mg. cbn [so_marg so_idx so_cur so_dir so_need so_lab so_obj]. rewrite length_upd, nth_upd_eq by lia. repeat split; auto.
  - intros q Hq. replace q with 0 by lia. rewrite nth_upd_eq by lia. rewrite map_length, seq_length. reflexivity.
  - intros l Hl. rewrite nth_upd_eq by lia. apply nth_un. auto.
  - intros; lia.
  - intros; lia.
Qed.
Lemma step_ok : forall d p s, p < m -> at_step d p s -> exists s', (s' <- ts_step g ST ps fast s ;; ts_update s') = Ret s' /\ at_step d (S p) s'.
Proof.
  intros d p s Hp ([F1 F2] & ED & EN & EI & EC & T). pose proof T as (T1 & T2 & T3). unfold ts_step. rewrite ED, EI. destruct (push_ok d p (so_cur s) Hp) as (c & E & LC & MC); [rewrite EC; auto|]. rewrite E. cbn [bind]. unfold ts_update. cbn [so_marg so_idx so_cur so_dir so_need so_lab so_obj].
  pose proof (pos_lt d (S p) ltac:(lia)) as HP. rewrite wr_Ret by lia. cbn [bind]. eexists. split; [reflexivity|]. unfold at_step, fits. cbn [so_marg so_idx so_cur so_dir so_need so_lab so_obj]. rewrite length_upd. unfold mg at 1. cbn [so_marg]. rewrite nth_upd_eq by lia.
  assert (K1 : forall q, q <= p -> mg d (mkSolver d (so_need s) (pos d (S p)) c (upd (so_marg s) (pos d (S p)) c) (so_lab s) (so_obj s)) q = mg d s q).
  { intros q Hq. unfold mg. cbn [so_marg]. apply nth_upd_neq. intros X. apply pos_inj in X; lia. }
  assert (K2 : mg d (mkSolver d (so_need s) (pos d (S p)) c (upd (so_marg s) (pos d (S p)) c) (so_lab s) (so_obj s)) (S p) = c). { unfold mg. cbn [so_marg]. apply nth_upd_eq. lia. }
  split; [split; auto|]. split; [auto|]. split; [auto|]. split; [auto|]. split; [auto|]. split; [|split].
  - intros q Hq. destruct (Nat.eq_dec q (S p)) as [->|]; [rewrite K2; auto|]. rewrite K1 by lia. apply T1. lia.
  - rewrite K1 by lia. auto.
  - intros q Hq y Hy. destruct (Nat.eq_dec q p) as [->|D].
    + rewrite K2, (K1 p) by lia. rewrite <- EC. apply MC. auto.
    + rewrite (K1 q), (K1 (S q)) by lia. apply T3; auto. lia.
Qed.

Definition sized (d : bool) (s : solver) : Prop := forall q, q <= m -> length (mg d s q) = L (pos d q).
(** The labels of a pass, in its order, are best in turn. *)
Definition turn (d : bool) (s : solver) (y : nat -> nat) : Prop :=
  (forall q, q <= m -> nth (pos d q) (so_lab s) None = Some (y q) /\ y q < L (pos d q)) /\
  (forall q, q < m -> forall x, x < L (pos d q) -> (nth (y q) (mg d s q) 0 + qd d q (y q) (y (S q)) <= nth x (mg d s q) 0 + qd d q x (y (S q)))%Qc).
Lemma estimate_ok : forall d s b, fits s -> so_dir s = d -> so_idx s = pos d m -> nth (pos d m) (so_lab s) None = Some b -> b < L (pos d m) -> sized d s ->
  exists lab y, ts_estimate g ST ps fast s = Ret (mkSolver d (so_need s) (pos d m) (so_cur s) (so_marg s) lab (so_obj s)) /\ length lab = n /\ y m = b /\ turn d (mkSolver d (so_need s) (pos d m) (so_cur s) (so_marg s) lab (so_obj s)) y.
Proof.
  intros d s b [F1 F2] ED EI EB Hb SZ. unfold ts_estimate. cbv zeta. rewrite EI, ED. pose proof (pos_lt d m (le_n m)) as HP. rewrite (rd_nth _ _ _ None) by lia. cbn [bind]. rewrite EB.
  set (Q := fun (c : nat) (st : nat * list (option nat) * nat) => let '(i, lab, opt) := st in i = pos d (m - c) /\ length lab = n /\ exists y : nat -> nat, y m = b /\ opt = y (m - c) /\
    (forall q, m - c <= q -> q <= m -> nth (pos d q) lab None = Some (y q) /\ y q < L (pos d q)) /\
    (forall q, m - c <= q -> q < m -> forall x, x < L (pos d q) -> (nth (y q) (mg d s q) 0 + qd d q (y q) (y (S q)) <= nth x (mg d s q) 0 + qd d q x (y (S q)))%Qc)).
  match goal with |- context [foldM ?F ?l ?s0] => destruct (foldM_steps _ _ F Q l 0 s0) as (((i & lab) & opt) & E & QQ) end.
  - unfold Q. replace (m - 0) with m by lia. split; auto. split; auto. exists (fun _ => b). split; auto. split; auto. split; [|intros; lia]. intros q H1 H2. replace q with m by lia. auto.
  - intros c a [[i lab] opt] _ Hc (Ei & Ll & y & Y1 & Y2 & Y3 & Y4). rewrite seq_length in Hc. cbn [st_vars ST] in Hc. rewrite nm in Hc. assert (Hcm : c < m) by lia. clear Hc. set (p := m - S c). assert (Ep : m - c = S p) by lia. rewrite Ep in *.
    assert (EN : ts_next (negb d) i = Ret (pos d p)). { subst i. destruct d; cbn [negb]; unfold ts_next, pos; [cbn; f_equal; lia|f_equal; lia]. }
    rewrite EN. cbn [bind]. pose proof (pos_lt d p ltac:(lia)) as Hpp. rewrite (rd_nth _ _ _ []) by lia. cbn [bind]. fold (mg d s p). destruct (Y3 (S p) ltac:(lia) ltac:(lia)) as [Y5 Y6].
    destruct (backward_ok d p (mg d s p) opt) as (w & k & EW & LW & NW); [lia|apply SZ; lia|congruence|]. rewrite EW. cbn [bind]. assert (SP : length (mg d s p) = L (pos d p)) by (apply SZ; lia). rewrite SP in LW, NW. pose proof (L_pos _ Hpp) as LP. destruct (best_ok w) as (x & vx & EX & Hx & Vx & Mx); [lia|]. rewrite EX. cbn [bind]. rewrite wr_Ret by lia. cbn [bind]. eexists. split; [reflexivity|].
    unfold Q. fold p. split; auto. split; [rewrite length_upd; auto|]. exists (fun q => if q =? p then x else y q). destruct (Nat.eqb_spec m p); [lia|]. rewrite Nat.eqb_refl. split; auto. split; auto. split.
    + intros q H1 H2. destruct (Nat.eqb_spec q p) as [->|D]; [rewrite nth_upd_eq by lia; split; auto; lia|]. rewrite nth_upd_neq by (intros X; apply pos_inj in X; lia). apply Y3; lia.
    + intros q H1 H2 x' Hx'. destruct (Nat.eqb_spec (S q) p); [lia|]. destruct (Nat.eqb_spec q p) as [->|D]; [|apply Y4; auto; lia].
      rewrite LW in Hx, Mx. pose proof (Mx x' Hx') as MM. rewrite Vx in MM. rewrite !NW in MM by auto. rewrite <- Y2. ql.
  - cbn [plus] in QQ. rewrite seq_length in QQ. cbn [st_vars ST] in QQ. rewrite nm in QQ. replace (S m - 1) with m in QQ by lia. unfold Q in QQ. rewrite Nat.sub_diag in QQ. destruct QQ as (_ & Ll & y & Y1 & _ & Y3 & Y4). exists lab, y. rewrite E. cbn [bind]. split; [reflexivity|]. split; auto. split; auto. split.
    + intros q Hq. cbn [so_lab]. apply Y3; lia.
    + intros q Hq. apply Y4; lia.
Qed.
Definition done (d : bool) (s : solver) (y : nat -> nat) : Prop := fits s /\ so_need s = true /\ so_dir s = d /\ so_idx s = pos d m /\ turn d s y /\ so_obj s = nth (y m) (mg d s m) 0%Qc /\ forall x, x < L (pos d m) -> (so_obj s <= nth x (mg d s m) 0)%Qc.
Lemma finalize_ok : forall d s, fits s -> so_dir s = d -> so_idx s = pos d m -> sized d s -> exists s' y, ts_finalize g ST ps fast s = Ret s' /\ so_marg s' = so_marg s /\ done d s' y.
Proof.
  intros d s [F1 F2] ED EI SZ. unfold ts_finalize. rewrite EI. pose proof (pos_lt d m (le_n m)) as HP. rewrite (rd_nth _ (so_marg s) _ []) by lia. cbn [bind]. fold (mg d s m). pose proof (SZ m (le_n m)) as LM. pose proof (L_pos _ HP) as LP.
  destruct (best_ok (mg d s m)) as (b & vb & EB & Hb & Vb & Mb); [lia|]. rewrite EB. cbn [bind]. rewrite wr_Ret by lia. cbn [bind].
  destruct (estimate_ok d (mkSolver (so_dir s) true (pos d m) (so_cur s) (so_marg s) (upd (so_lab s) (pos d m) (Some b)) vb) b) as (lab & y & E & Ll & Y1 & Y2); cbn [so_dir so_idx so_lab so_marg so_need so_cur so_obj] in *; auto.
  - split; cbn; rewrite ?length_upd; auto.
  - apply nth_upd_eq. lia.
  - lia.
  - rewrite E. exists (mkSolver d true (pos d m) (so_cur s) (so_marg s) lab vb), y. split; auto. split; auto. repeat split; cbn [so_dir so_idx so_lab so_marg so_need so_cur so_obj]; auto; try apply Y2; auto.
    + unfold mg. cbn [so_marg]. rewrite Y1. exact Vb.
    + intros x Hx. apply Mb. lia.
Qed.
Lemma move_ok : forall s, idle s -> exists s' d y, ts_move g ST ps fast s = Ret s' /\ tr d m (mg d s') /\ done d s' y.
Proof.
  intros s [F I]. unfold ts_move. assert (B : exists s1 d, (if so_need s then ts_init ST (negb (so_dir s)) s else Ret s) = Ret s1 /\ at_step d 0 s1).
  { destruct (so_need s) eqn:EN.
    - destruct (init_ok (negb (so_dir s)) s F) as (s1 & E & A). eauto.
    - destruct I as [I|(d & A)]; [discriminate|]. eauto. }
  destruct B as (s1 & d & E & A). rewrite E. cbn [bind]. match goal with |- context [foldM ?G ?l ?s0] => destruct (foldM_steps _ _ G (at_step d) l 0 s0) as (s2 & E2 & A2) end; auto.
  - intros i a s' _ Hi A'. rewrite seq_length in Hi. cbn [st_vars ST] in Hi. rewrite nm in Hi. apply (step_ok d i s'); auto. lia.
  - rewrite E2. cbn [bind]. cbn [plus] in A2. rewrite seq_length in A2. cbn [st_vars ST] in A2. rewrite nm in A2. replace (S m - 1) with m in A2 by lia. destruct A2 as (F2 & D2 & _ & I2 & _ & T2).
    destruct (finalize_ok d s2 F2 D2 I2 (proj1 T2)) as (s3 & y & E3 & EM & DN). exists s3, d, y. split; auto. split; auto. eapply tr_ext; [|exact T2]. intros q _. unfold mg. rewrite EM. reflexivity.
Qed.

(** The labels of a pass as a list *)
Lemma pos_pos : forall d i, i <= m -> pos d (pos d i) = i. Proof. intros [|] i H; unfold pos; lia. Qed.
Lemma pos_le : forall d i, i <= m -> pos d i <= m. Proof. intros [|] i H; unfold pos; lia. Qed.
Definition listed (d : bool) (Y : nat -> nat) : list nat := map (fun i => Y (pos d i)) (seq 0 n).
Lemma listed_nth : forall d Y i, i <= m -> nth i (listed d Y) 0 = Y (pos d i).
Proof. intros d Y i H. unfold listed. rewrite (nth_map_lt _ _ _ _ i 0) by (rewrite seq_length, nm; lia). rewrite seq_nth by (rewrite nm; lia). reflexivity. Qed.
Lemma listed_ok : forall d Y, (forall q, q <= m -> Y q < L (pos d q)) -> chain_labeling g vars (listed d Y) /\ chain_energy g own vars pws nums (listed d Y) = pe d m Y.
Proof.
  intros d Y V. split; [split|].
  - unfold listed. rewrite map_length, seq_length. auto.
  - intros i Hi. rewrite nm in Hi. rewrite listed_nth by lia. pose proof (V (pos d i) (pos_le d i ltac:(lia))) as H. rewrite pos_pos in H by lia. exact H.
  - rewrite (energy_pe d). apply pe_ext. intros q Hq. rewrite listed_nth by (apply pos_le; auto). rewrite pos_pos by auto. reflexivity.
Qed.
Lemma labeling_valid : forall d y, chain_labeling g vars y -> forall q, q <= m -> nth (pos d q) y 0 < L (pos d q).
Proof. intros d y [_ H] q Hq. apply H. apply pos_lt. auto. Qed.

Definition solved (s : solver) : Prop :=
  exists y, so_lab s = map Some y /\ chain_labeling g vars y /\ chain_energy g own vars pws nums y = so_obj s /\ forall z, chain_labeling g vars z -> (so_obj s <= chain_energy g own vars pws nums z)%Qc.
Lemma done_solved : forall d s y, tr d m (mg d s) -> done d s y -> solved s.
Proof.
  intros d s y T ([F1 F2] & _ & _ & _ & [TL TB] & EO & LO). destruct (listed_ok d y) as [CL CE]; [intros q Hq; apply TL; auto|]. exists (listed d y). split; [|split; [auto|split]].
  - apply (nth_ext _ _ None None); [rewrite map_length, F2; symmetry; apply CL|]. intros i Hi. rewrite F2, nm in Hi. rewrite (nth_map_lt _ _ _ _ i 0) by (rewrite (proj1 CL), nm; lia). rewrite listed_nth by lia. destruct (TL (pos d i) (pos_le d i ltac:(lia))) as [H _]. rewrite pos_pos in H by lia. exact H.
  - rewrite CE, EO. apply tr_back; auto. intros q Hq. apply TL. auto.
  - intros z CZ. rewrite (energy_pe d). eapply Qcle_trans; [apply (LO (nth (pos d m) z 0)); apply (labeling_valid d); auto|]. apply (tr_low d m (mg d s) (fun q => nth (pos d q) z 0)); auto. intros q Hq. apply labeling_valid; auto.
Qed.

(** The pass back *)
Definition bk (s1 : solver) (d : bool) (p : nat) (N : nat -> list Qc) (s : solver) : Prop := tr d p N /\ forall q, q <= m ->
  length (mg d s q) = L (pos d q) /\ forall l, l < L (pos d q) -> nth l (mg d s q) 0%Qc = if q <=? p then (nth l (mg d s1 q) 0 + nth l (N q) 0 - u (pos d q) l)%Qc else nth l (mg d s1 q) 0%Qc.
Definition at_back (s1 : solver) (d : bool) (p : nat) (s : solver) : Prop := fits s /\ so_dir s = d /\ so_need s = false /\ so_idx s = pos d p /\ exists N, so_cur s = N p /\ bk s1 d p N s.
Lemma sized_negb : forall d s, sized d s -> sized (negb d) s.
Proof. intros d s H q Hq. specialize (H (m - q) ltac:(lia)). unfold mg in *. pose proof (pos_negb d (m - q) ltac:(lia)) as E. replace (m - (m - q)) with q in E by lia. rewrite E. exact H. Qed.
Lemma tr_start : forall d, tr d 0 (fun _ => map (u (pos d 0)) (seq 0 (L (pos d 0)))).
Proof. intros d. split; [|split]; [|intros l Hl; apply nth_un; auto|intros; lia]. intros q Hq. replace q with 0 by lia. rewrite map_length, seq_length. reflexivity. Qed.
Lemma bk_start : forall s1 d, sized d s1 -> bk s1 d 0 (fun _ => map (u (pos d 0)) (seq 0 (L (pos d 0)))) s1.
Proof.
  intros s1 d SZ. split; [apply tr_start|]. intros q Hq. split; [apply SZ; auto|]. intros l Hl. destruct (Nat.leb_spec q 0) as [H|H]; auto. replace q with 0 in * by lia. rewrite nth_un by auto. ring.
Qed.
Lemma back_init : forall s1 d, fits s1 -> sized d s1 -> exists s, ts_coreInit ST d s1 = Ret s /\ at_back s1 d 0 s.
Proof.
  intros s1 d F SZ. unfold ts_coreInit. cbv zeta. rewrite start_pos. rewrite rd_un by (apply pos_lt; lia). cbn [bind]. eexists. split; [reflexivity|]. split; [exact F|]. split; auto. split; auto. split; auto.
  exists (fun _ => map (u (pos d 0)) (seq 0 (L (pos d 0)))). split; auto. exact (bk_start s1 d SZ).
Qed.
Lemma back_step : forall s1 d p s, p < m -> at_back s1 d p s -> exists s', (s' <- ts_step g ST ps fast s ;; ts_sumUp ST s') = Ret s' /\ at_back s1 d (S p) s'.
Proof.
  intros s1 d p s Hp ([F1 F2] & ED & EN & EI & N & EC & T & B). pose proof T as (T1 & T2 & T3). unfold ts_step. rewrite ED, EI. destruct (push_ok d p (so_cur s) Hp) as (c & E & LC & MC); [rewrite EC; auto|]. rewrite E. cbn [bind]. unfold ts_sumUp. cbn [so_marg so_idx so_cur so_dir so_need so_lab so_obj].
  pose proof (pos_lt d (S p) ltac:(lia)) as HP. rewrite (rd_nth _ (so_marg s) _ []) by lia. cbn [bind]. fold (mg d s (S p)). rewrite rd_un by auto. cbn [bind]. destruct (B (S p) ltac:(lia)) as [B1 B2]. rewrite B1.
  set (w := map (fun y => nth y (mg d s (S p)) 0 + nth y c 0 - u (pos d (S p)) y)%Qc (seq 0 (L (pos d (S p))))).
  rewrite (mapM_all _ _ _ (fun y => nth y (mg d s (S p)) 0 + nth y c 0 - u (pos d (S p)) y)%Qc).
  2: { intros y Hy. apply in_seq in Hy. rewrite (rd_nth _ c y 0%Qc) by lia. cbn [bind]. rewrite (rd_nth _ (mg d s (S p)) y 0%Qc) by lia. cbn [bind]. rewrite (rd_nth _ _ y 0%Qc) by (rewrite map_length, seq_length; lia). cbn [bind]. rewrite nth_un by lia. reflexivity. }
  cbn [bind]. fold w. rewrite wr_Ret by lia. cbn [bind]. eexists. split; [reflexivity|]. unfold at_back, fits. cbn [so_marg so_idx so_cur so_dir so_need so_lab so_obj]. rewrite length_upd. repeat split; auto.
  exists (fun q => if q =? S p then c else N q). rewrite Nat.eqb_refl. split; auto. split.
  - split; [|split].
    + intros q Hq. destruct (Nat.eqb_spec q (S p)) as [->|]; auto. apply T1. lia.
    + cbn [Nat.eqb]. auto.
    + intros q Hq y Hy. destruct (Nat.eqb_spec q (S p)); [lia|]. destruct (Nat.eqb_spec (S q) (S p)) as [X|X].
      * injection X as ->. rewrite <- EC. apply MC. auto.
      * apply T3; auto. lia.
  - intros q Hq. destruct (Nat.eq_dec q (S p)) as [->|D].
    + unfold mg at 1 2. cbn [so_marg]. rewrite !nth_upd_eq by lia. rewrite Nat.eqb_refl. destruct (Nat.leb_spec (S p) (S p)); [|lia]. unfold w. rewrite map_length, seq_length. split; auto. intros l Hl. rewrite (nth_map_lt _ _ _ _ l 0) by (rewrite seq_length; auto). rewrite seq_nth by auto. cbn [plus]. rewrite B2 by auto. destruct (Nat.leb_spec (S p) p); [lia|]. reflexivity.
    + assert (EM : mg d (mkSolver d (so_need s) (pos d (S p)) c (upd (so_marg s) (pos d (S p)) w) (so_lab s) (so_obj s)) q = mg d s q). { unfold mg. cbn [so_marg]. apply nth_upd_neq. intros X. apply pos_inj in X; lia. }
      rewrite EM. destruct (B q Hq) as [B3 B4]. split; auto. intros l Hl. rewrite B4 by auto. destruct (Nat.eqb_spec q (S p)); [lia|]. destruct (Nat.leb_spec q p); destruct (Nat.leb_spec q (S p)); try lia; reflexivity.
Qed.
Lemma tr_prefix : forall d p q M, q <= p -> tr d p M -> tr d q M.
Proof. intros d p q M H (A & B & D). split; [intros; apply A; lia|]. split; auto. intros. apply D; auto. lia. Qed.
(** The sum of the two passes is the smallest energy with a label. *)
Lemma min_marginal : forall d M N q l, tr d m M -> tr (negb d) m N -> q <= m -> l < L (pos d q) ->
  least_energy g own vars pws nums (fun y => nth (pos d q) y 0 = l) (nth l (M q) 0 + nth l (N (m - q)%nat) 0 - u (pos d q) l)%Qc.
Proof.
  intros d M N q l TM TN Hq Hl. pose proof (tr_prefix d m q M Hq TM) as TM'. pose proof (tr_prefix (negb d) m (m - q) N ltac:(lia) TN) as TN'. pose proof (pos_negb d q Hq) as PN. split.
  - destruct (tr_exists d q M l TM' Hl) as (y1 & A1 & A2 & A3). destruct (tr_exists (negb d) (m - q) N l TN') as (y2 & B1 & B2 & B3); [rewrite PN; auto|].
    set (Y := fun r => if r <=? q then y1 r else y2 (m - r)).
    assert (V : forall r, r <= m -> Y r < L (pos d r)). { intros r Hr. unfold Y. destruct (Nat.leb_spec r q); auto. rewrite <- (pos_negb d r Hr). apply B2. lia. }
    destruct (listed_ok d Y V) as [CL CE]. exists (listed d Y). split; auto. split.
    + rewrite listed_nth by (apply pos_le; auto). rewrite pos_pos by auto. unfold Y. rewrite Nat.leb_refl. auto.
    + rewrite CE. rewrite <- (pe_split d Y (m - q) q) by lia. rewrite (pe_ext d q Y y1). 2: { intros r Hr. unfold Y. destruct (Nat.leb_spec r q); [auto|lia]. }
      rewrite (pe_ext (negb d) (m - q) _ y2). 2: { intros r Hr. unfold Y. destruct (Nat.leb_spec (m - r) q) as [H|H]; [|f_equal; lia]. replace r with (m - q) by lia. replace (m - (m - q)) with q by lia. congruence. }
      rewrite A3, B3. replace (Y q) with l by (unfold Y; rewrite Nat.leb_refl; auto). ring.
  - intros y CL Ey. rewrite (energy_pe d). set (Y := fun q => nth (pos d q) y 0). rewrite <- (pe_split d Y (m - q) q) by lia.
    assert (V : forall r, r <= m -> Y r < L (pos d r)) by (intros r Hr; apply labeling_valid; auto).
    assert (H1 : (nth (Y q) (M q) 0 <= pe d q Y)%Qc). { apply tr_low; auto. intros r Hr. apply V. lia. }
    assert (H2 : (nth (Y (m - (m - q))%nat) (N (m - q)%nat) 0 <= pe (negb d) (m - q) (fun r => Y (m - r)%nat))%Qc). { apply (tr_low (negb d) (m - q) N (fun r => Y (m - r)) TN'); [lia|]. intros r Hr. pose proof (V (m - r) ltac:(lia)) as X. pose proof (pos_negb d (m - r) ltac:(lia)) as E. replace (m - (m - r)) with r in E by lia. rewrite E. exact X. }
    replace (m - (m - q)) with q in H2 by lia. change (Y q) with (nth (pos d q) y 0) in *. rewrite Ey in *. ql.
Qed.

Definition marginals_ok (s : solver) : Prop := length (so_marg s) = n /\ forall i, i < n -> length (nth i (so_marg s) []) = L i /\
  forall l, l < L i -> least_energy g own vars pws nums (fun y => nth i y 0 = l) (nth l (nth i (so_marg s) []) 0%Qc).
Lemma back_marginals : forall s1 d N s2, tr d m (mg d s1) -> fits s2 -> bk s1 (negb d) m N s2 -> marginals_ok s2.
Proof.
  intros s1 d N s2 T [F1 _] [TN B]. split; auto. intros i Hi. rewrite nm in Hi. set (q := pos d i). assert (Hq : q <= m) by (apply pos_le; lia). assert (EQ : pos d q = i) by (apply pos_pos; lia). pose proof (pos_negb d q Hq) as PN. rewrite EQ in PN.
  destruct (B (m - q) ltac:(lia)) as [B1 B2]. rewrite PN in B1, B2. unfold mg in B1, B2. rewrite PN in B1, B2. split; auto. intros l Hl. rewrite B2 by auto. destruct (Nat.leb_spec (m - q) m); [|lia].
  pose proof (min_marginal d (mg d s1) N q l T TN Hq) as R. rewrite EQ in R. unfold mg in R. rewrite EQ in R. apply R. auto.
Qed.
Lemma done_least : forall d s y, marginals_ok s -> done d s y -> least_energy g own vars pws nums (fun _ => True) (so_obj s).
Proof.
  intros d s y [_ MO] (_ & _ & _ & _ & [TL _] & EO & LO). destruct (MO (pos d m) (pos_lt d m (le_n m))) as [_ M]. fold (mg d s m) in M. destruct (TL m (le_n m)) as [_ Hy]. split.
  - destruct (M (y m) Hy) as [(z & Z1 & _ & Z2) _]. exists z. rewrite EO. auto.
  - intros z CZ _. pose proof (labeling_valid d z CZ m (le_n m)) as Hz. destruct (M _ Hz) as [_ LZ]. eapply Qcle_trans; [apply (LO _ Hz)|]. apply LZ; auto.
Qed.
Lemma done_labels : forall d s y, done d s y -> exists z, so_lab s = map Some z /\ chain_labeling g vars z.
Proof.
  intros d s y ([F1 F2] & _ & _ & _ & [TL _] & _). destruct (listed_ok d y) as [CL _]; [intros q Hq; apply TL; auto|]. exists (listed d y). split; auto.
  apply (nth_ext _ _ None None); [rewrite map_length, F2; symmetry; apply CL|]. intros i Hi. rewrite F2, nm in Hi. rewrite (nth_map_lt _ _ _ _ i 0) by (rewrite (proj1 CL), nm; lia). rewrite listed_nth by lia. destruct (TL (pos d i) (pos_le d i ltac:(lia))) as [H _]. rewrite pos_pos in H by lia. exact H.
Qed.
Lemma back_ok : forall s1 d y1, tr d m (mg d s1) -> done d s1 y1 -> exists s2 d2 y2, ts_moveBack g ST ps fast s1 = Ret s2 /\ marginals_ok s2 /\ done d2 s2 y2.
Proof.
  intros s1 d y1 T DN. pose proof DN as (F & EN & ED & EI & _). assert (SZ : sized d s1) by exact (proj1 T). pose proof (sized_negb d s1 SZ) as SN. unfold ts_moveBack.
  set (Q := fun p s => (p = 0 /\ s = s1) \/ (0 < p /\ at_back s1 (negb d) p s)).
  match goal with |- context [foldM ?G ?l ?s0] => destruct (foldM_steps _ _ G Q l 0 s0) as (s2 & E2 & Q2) end.
  - left. auto.
  - intros p a s _ Hp QQ. rewrite seq_length in Hp. cbn [st_vars ST] in Hp. rewrite nm in Hp. assert (A : exists s', (if so_need s then ts_coreInit ST (negb (so_dir s)) s else Ret s) = Ret s' /\ at_back s1 (negb d) p s').
    { destruct QQ as [[-> ->]|[Hp0 A]]; [rewrite EN, ED; apply back_init; auto|]. exists s. split; auto. destruct A as (_ & _ & NN & _). rewrite NN. reflexivity. }
    destruct A as (s' & E & A). rewrite E. cbn [bind]. destruct (back_step s1 (negb d) p s') as (s3 & E3 & A3); [lia|auto|]. exists s3. split; auto. right. split; auto. lia.
  - rewrite E2. cbn [bind]. cbn [plus] in Q2. rewrite seq_length in Q2. cbn [st_vars ST] in Q2. rewrite nm in Q2. replace (S m - 1) with m in Q2 by lia. destruct Q2 as [[M0 ->]|[M0 A]].
    + destruct (finalize_ok d s1 F ED EI SZ) as (s3 & y & E3 & EM & DN3). exists s3, d, y. split; auto. split; auto. pose proof (bk_start s1 (negb d) SN) as BK. assert (BM : forall p N, p = 0 -> bk s1 (negb d) 0 N s1 -> bk s1 (negb d) p N s1) by (intros p N -> X; exact X). specialize (BM m _ M0 BK). clear BK. eapply (back_marginals s1 d _ s3 T); [apply DN3|]. destruct BM as [BK1 BK2]. split; [exact BK1|]. intros q Hq. specialize (BK2 q Hq). replace (mg (negb d) s3 q) with (mg (negb d) s1 q) by (unfold mg; rewrite EM; reflexivity). exact BK2.
    + destruct A as (F2 & D2 & _ & I2 & N & _ & BK). assert (SZ2 : sized (negb d) s2) by (intros q Hq; apply (proj2 BK); auto). destruct (finalize_ok (negb d) s2 F2 D2 I2 SZ2) as (s3 & y & E3 & EM & DN3). exists s3, (negb d), y. split; auto. split; auto.
      eapply (back_marginals s1 d N s3 T); [apply DN3|]. destruct BK as [BK1 BK2]. split; auto. intros q Hq. specialize (BK2 q Hq). replace (mg (negb d) s3 q) with (mg (negb d) s2 q) by (unfold mg; rewrite EM; reflexivity). exact BK2.
Qed.

(** All histories *)
Lemma update_kept : forall s s', fits s -> ts_update s = Ret s' -> fits s' /\ so_need s' = so_need s.
Proof. intros s s' [F1 F2] E. unfold ts_update in E. apply bind_inv in E as (w & E1 & E). apply wr_inv in E1 as [_ ->]. injection E as <-. split; auto. split; cbn; rewrite ?length_upd; auto. Qed.
Lemma finalize_kept : forall s s', fits s -> ts_finalize g ST ps fast s = Ret s' -> fits s' /\ so_need s' = true.
Proof.
  intros s s' [F1 F2] E. unfold ts_finalize in E. apply bind_inv in E as (w & _ & E). apply bind_inv in E as ((b & vb) & _ & E). apply bind_inv in E as (lab & E1 & E). apply wr_inv in E1 as [_ ->]. unfold ts_estimate in E. cbn [so_dir so_idx so_lab so_marg so_need so_cur so_obj] in E.
  apply bind_inv in E as (o & _ & E). destruct o as [opt|]; [|discriminate]. apply bind_inv in E as (((i & lab) & opt') & E2 & E). injection E as <-. split; auto. split; [exact F1|]. cbn.
  match type of E2 with foldM ?G ?l ?s0 = _ => apply (foldM_kept _ _ G (fun st => length (snd (fst st)) = n)) in E2 end; auto.
  - intros [[i1 l1] o1] a s2 I H. cbn [fst snd] in *. apply bind_inv in H as (j & _ & H). apply bind_inv in H as (mm & _ & H). apply bind_inv in H as (uu & _ & H). apply bind_inv in H as ((b1 & v1) & _ & H). apply bind_inv in H as (l2 & H1 & H). apply wr_inv in H1 as [_ ->]. injection H as <-. cbn. rewrite length_upd. auto.
  - cbn. rewrite length_upd. auto.
Qed.
Lemma back_kept : forall s s', fits s -> ts_moveBack g ST ps fast s = Ret s' -> fits s' /\ so_need s' = true.
Proof.
  intros s s' F E. unfold ts_moveBack in E. apply bind_inv in E as (s2 & E2 & E). apply finalize_kept in E; auto. match type of E2 with foldM ?G ?l ?s0 = _ => apply (foldM_kept _ _ G fits) in E2 end; auto.
  intros s3 a s4 I H. apply bind_inv in H as (s5 & H5 & H). assert (F5 : fits s5). { destruct (so_need s3); [|injection H5 as <-; auto]. unfold ts_coreInit in H5. apply bind_inv in H5 as (w & _ & H5). injection H5 as <-. exact I. }
  apply bind_inv in H as (s6 & H6 & H). unfold ts_step in H6. apply bind_inv in H6 as ((j & c) & _ & H6). injection H6 as <-. unfold ts_sumUp in H. apply bind_inv in H as (w1 & _ & H). apply bind_inv in H as (w2 & _ & H). apply bind_inv in H as (w3 & _ & H). apply bind_inv in H as (w4 & H4 & H). apply wr_inv in H4 as [_ ->]. injection H as <-.
  destruct F5 as [G1 G2]. split; cbn in *; rewrite ?length_upd; auto.
Qed.
Lemma new_idle : idle (so_new ST).
Proof. split; [|left; reflexivity]. split; cbn [so_new so_marg so_lab st_un st_vars ST]; [rewrite !map_length, seq_length; auto|apply repeat_length]. Qed.
Lemma call_idle : forall s o s', idle s -> ts_call g ST ps fast s o = Ret s' -> idle s'.
Proof.
  intros s [d| |] s' I E; cbn [ts_call] in E.
  - destruct (init_ok d s (proj1 I)) as (s2 & E2 & A). rewrite E in E2. injection E2 as <-. split; [apply A|]. right. exists d. exact A.
  - destruct (move_ok s I) as (s2 & d & y & E2 & _ & DN). rewrite E in E2. injection E2 as <-. split; [apply DN|left; apply DN].
  - destruct (back_kept s s' (proj1 I) E) as [F NN]. split; auto.
Qed.
Lemma run_idle : forall h s, ts_run g ST ps fast h = Ret s -> idle s.
Proof. intros h s E. unfold ts_run in E. eapply (foldM_kept _ _ (ts_call g ST ps fast) idle); [|exact new_idle|exact E]. intros; eapply call_idle; eauto. Qed.
Lemma run_total : forall h, ~ In TBack h -> exists s, ts_run g ST ps fast h = Ret s.
Proof.
  intros h NB. unfold ts_run. assert (G : forall h s, ~ In TBack h -> idle s -> exists s', foldM (ts_call g ST ps fast) h s = Ret s').
  { clear h NB. induction h as [|o h IH]; intros s NB I; cbn [foldM]; [eauto|]. assert (E : exists s', ts_call g ST ps fast s o = Ret s').
    { destruct o as [d| |]; cbn [ts_call]; [destruct (init_ok d s (proj1 I)) as (s2 & E2 & _); eauto|destruct (move_ok s I) as (s2 & d & y & E2 & _); eauto|exfalso; apply NB; left; auto]. }
    destruct E as (s' & E). rewrite E. cbn [bind]. apply IH; [intros X; apply NB; right; auto|eapply call_idle; eauto]. }
  apply G; auto. apply new_idle.
Qed.
End Run.
End Store.

(** The constructor throws when the variables and factors are not a sequence. *)
Lemma mapM_or : forall (A B : Type) (f : A -> outcome B) (J : A -> Prop) l, (forall a, In a l -> (exists b, f a = Ret b /\ J a) \/ f a = Throw) -> (exists o, mapM f l = Ret o /\ forall a, In a l -> J a) \/ mapM f l = Throw.
Proof.
  induction l as [|a l IH]; intros H; cbn [mapM]; [left; exists []; split; [auto|intros ? []]|]. destruct (H a (or_introl eq_refl)) as [(b & E & Ja)|E]; rewrite E; cbn [bind]; [|auto].
  destruct IH as [(o & E2 & HJ)|E2]; [intros; apply H; right; auto| |]; rewrite E2; cbn [bind]; [left|auto]. eexists. split; [reflexivity|]. intros c [<-|I]; auto.
Qed.
Lemma new_throw : forall g vars pws nums, Forall (fun f => f < length (v_factors g)) pws -> ~ chain g vars pws -> ts_new g vars pws nums = Throw.
Proof.
  intros g vars pws nums F NC. unfold ts_new. assert (E : ts_check g vars pws = Throw); [|rewrite E; reflexivity]. unfold ts_check. destruct (Nat.eqb_spec (length vars) 0) as [Z|Z]; [reflexivity|]. cbn [orb]. destruct (Nat.eqb_spec (length vars - 1) (length pws)) as [E|]; [|reflexivity]. cbn [negb].
  match goal with |- mapM ?f ?l = _ => destruct (mapM_or _ _ f (fun i => joins g (nth i pws 0) (nth i vars 0) (nth (S i) vars 0)) l) as [(o & _ & J)|X] end; auto.
  - intros i Hi. apply in_seq in Hi. rewrite (rd_nth _ pws i 0) by lia. cbn [bind]. rewrite Forall_forall in F. assert (HF : nth i pws 0 < length (v_factors g)) by (apply F; apply nth_In; lia). destruct (nth_error_lt _ _ _ HF) as ((vis & t) & NE). rewrite (rd_Ret _ _ _ _ NE). cbn [bind].
    destruct (Nat.eqb_spec (length vis) 2) as [L2|L2]; [|auto]. destruct vis as [|v0 [|v1 [|]]]; try discriminate L2. change (rd [v0; v1] 0) with (Ret v0). change (rd [v0; v1] 1) with (Ret v1). cbn [bind]. rewrite (rd_nth _ vars i 0), (rd_nth _ vars (S i) 0) by lia. cbn [bind].
    destruct (Nat.eqb_spec v0 (nth i vars 0)) as [E0|D0].
    + destruct (Nat.eqb_spec v1 (nth (S i) vars 0)) as [E1|D1]; auto. left. exists true. split; auto. eexists. split; [exact NE|]. left. cbn. congruence.
    + destruct (Nat.eqb_spec v0 (nth (S i) vars 0)) as [E1|D1]; auto. destruct (Nat.eqb_spec v1 (nth i vars 0)) as [E2|D2]; auto. left. exists false. split; auto. eexists. split; [exact NE|]. right. cbn. congruence.
  - exfalso. apply NC. split; [lia|]. intros i Hi. apply J. apply in_seq. lia.
Qed.
