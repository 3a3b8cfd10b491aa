(** Proofs about FusionMover: the binary model has the energy of the fused labelings. *)
From Coq Require Import QArith Qcanon Permutation Sorting.Sorted.
From Verif Require Import Base Values GmView GmViewSpec ShapeSpec AlphaBetaSwapSpec GmViewProofs FuseModel FuseSpec FuseMoves HqpboModel FmModel FmSpec.
Open Scope nat_scope.

Lemma nth_repeat_lt (x : nat) k i : i < k -> nth i (repeat x k) 0 = x.
Proof. revert i. induction k as [|k IH]; intros [|i] H; cbn; try lia; auto. apply IH. lia. Qed.
Lemma Forall2_length_eq {X Y} (R : X -> Y -> Prop) l l' : Forall2 R l l' -> length l = length l'.
Proof. induction 1; cbn; congruence. Qed.
Section Free.
Variables A B : list nat.
Definition free (v : nat) : bool := negb (nth v A 0 =? nth v B 0).
Definition pos (v : nat) : nat := length (filter free (seq 0 v)).
Definition frees (n : nat) : list nat := filter free (seq 0 n).
Lemma frees_S n : frees (S n) = frees n ++ (if free n then [n] else []).
Proof. unfold frees. rewrite seq_S, filter_app. cbn. destruct (free n); reflexivity. Qed.
Lemma pos_S v : pos (S v) = pos v + (if free v then 1 else 0).
Proof. unfold pos. fold (frees (S v)). rewrite frees_S, app_length. fold (frees v). destruct (free v); reflexivity. Qed.
Lemma pos_bound v : pos v <= v.
Proof. induction v as [|v IH]; [cbn; lia|]. rewrite pos_S. destruct (free v); lia. Qed.
Lemma pos_le v w : v <= w -> pos v <= pos w.
Proof. induction 1; [lia|]. rewrite pos_S. lia. Qed.
Lemma pos_lt v w : free v = true -> v < w -> pos v < pos w.
Proof. intros F H. pose proof (pos_le (S v) w H) as P. rewrite pos_S, F in P. lia. Qed.
Lemma pos_inj v w : free v = true -> free w = true -> pos v = pos w -> v = w.
Proof. intros F1 F2 E. destruct (Nat.lt_total v w) as [H|[H|H]]; [apply pos_lt in H; auto; lia|exact H|apply pos_lt in H; auto; lia]. Qed.
Lemma frees_pos n v : v < n -> free v = true -> nth (pos v) (frees n) 0 = v.
Proof.
  induction n as [|n IH]; intros H F; [lia|]. rewrite frees_S. destruct (Nat.eq_dec v n) as [->|N].
  - rewrite F, app_nth2; unfold frees at 1; fold (pos n); [|lia]. rewrite Nat.sub_diag. reflexivity.
  - rewrite app_nth1; [apply IH; [lia|exact F]|]. change (length (frees n)) with (pos n). apply pos_lt; [exact F|lia].
Qed.
Lemma pos_frees n i : i < pos n -> nth i (frees n) 0 < n /\ free (nth i (frees n) 0) = true /\ pos (nth i (frees n) 0) = i.
Proof.
  intros H. assert (I : In (nth i (frees n) 0) (frees n)) by (apply nth_In; exact H). apply filter_In in I. destruct I as [I F]. apply in_seq in I.
  split; [lia|]. split; [exact F|]. assert (N : NoDup (frees n)) by (apply NoDup_filter, seq_NoDup). rewrite NoDup_nth in N.
  apply N; [apply pos_lt; [exact F|lia]|exact H|apply frees_pos; [lia|exact F]].
Qed.
End Free.

Section Mover.
Variables (T : Type) (OP : oper T) (ACC : accum T) (g : gmv T) (A B : list nat).
Let n := length (v_labels g).
Hypothesis W : wf_gmv g.
Hypothesis LA : labeling g A.
Hypothesis LB : labeling g B.
Notation free := (free A B). Notation pos := (pos A B). Notation frees := (frees A B).
Lemma lenA : length A = n. Proof. apply (labeling_length T g A LA). Qed.
Lemma lenB : length B = n. Proof. apply (labeling_length T g B LB). Qed.

(** What setup computes. *)
Record set_up (m : fmover T) : Prop := {
  su_n : fm_n m = pos n; su_lg : length (fm_l2g m) = n; su_gl : length (fm_g2l m) = n;
  su_l2g : forall i, i < pos n -> nth i (fm_l2g m) 0 = nth i (frees n) 0;
  su_g2l : forall v, v < n -> free v = true -> nth v (fm_g2l m) 0 = pos v;
  su_A : fm_A m = A; su_B : fm_B m = B; su_res : fm_res m = A; su_best : fm_bestB m = negb (a_bop ACC (fm_vA m) (fm_vB m)) }.
Lemma setup_ok vs res vA vB : length (fst vs) = n -> length (snd vs) = n -> length res = n -> exists m, fm_setup T ACC g vs A B res vA vB = Ret m /\ set_up m /\ fm_vA m = vA /\ fm_vB m = vB.
Proof.
  intros L1 L2 LR. unfold fm_setup. fold n.
  assert (G : forall k, k <= n -> exists st, foldM (fun (st : nat * (list nat * list nat)) vi =>
                 a <- rd A vi ;; b <- rd B vi ;;
                 if a =? b then Ret st
                 else l2g <- wr (fst (snd st)) (fst st) vi ;; g2l <- wr (snd (snd st)) vi (fst st) ;; Ret (S (fst st), (l2g, g2l))) (seq 0 k) (0, vs) = Ret st /\
     fst st = pos k /\ length (fst (snd st)) = n /\ length (snd (snd st)) = n /\ (forall i, i < pos k -> nth i (fst (snd st)) 0 = nth i (frees k) 0) /\ (forall v, v < k -> free v = true -> nth v (snd (snd st)) 0 = pos v)).
  { induction k as [|k IH]; intros Hk; [exists (0, vs); cbn; repeat split; auto; intros; lia|].
    destruct IH as (st & E & E1 & E2 & E3 & E4 & E5); [lia|]. rewrite seq_S, foldM_app, E. cbn [bind foldM Nat.add]. rewrite !rd_nth by (rewrite ?lenA, ?lenB; lia). cbn [bind]. rewrite pos_S, frees_S.
    destruct (nth k A 0 =? nth k B 0) eqn:EQ.
    - assert (FK : free k = false) by (unfold FmProofs.free; rewrite EQ; reflexivity). rewrite FK, Nat.add_0_r, app_nil_r. exists st. cbn [bind]. split; [reflexivity|]. split; [exact E1|]. split; [exact E2|]. split; [exact E3|]. split; [exact E4|].
      intros v Hv F. destruct (Nat.eq_dec v k) as [->|N]; [congruence|]. apply E5; [lia|exact F].
    - assert (FK : free k = true) by (unfold FmProofs.free; rewrite EQ; reflexivity). rewrite FK. assert (P : pos k < n) by (pose proof (pos_bound A B k); lia).
      rewrite E1. rewrite wr_nth by lia. cbn [bind]. rewrite wr_nth by lia. cbn [bind]. eexists. split; [reflexivity|]. cbn [fst snd]. split; [lia|]. rewrite !map_length, !seq_length. split; [exact E2|]. split; [exact E3|]. split.
      + intros i Hi. rewrite nth_map_seq by lia. destruct (Nat.eqb_spec i (pos k)) as [->|N].
        * rewrite app_nth2; change (length (frees k)) with (pos k); [|lia]. rewrite Nat.sub_diag. reflexivity.
        * rewrite app_nth1 by (change (length (frees k)) with (pos k); lia). apply E4. lia.
      + intros v Hv F. rewrite nth_map_seq by lia. destruct (Nat.eqb_spec v k) as [->|N]; [reflexivity|]. apply E5; [lia|exact F]. }
  destruct (G n (Nat.le_refl n)) as (st & E & E1 & E2 & E3 & E4 & E5). rewrite E. cbn [bind]. unfold copy_into. rewrite lenA, LR, Nat.leb_refl, <- LR, skipn_all, app_nil_r. cbn [bind].
  eexists. split; [reflexivity|]. split; [|split; reflexivity]. constructor; cbn; auto.
Qed.

(** The factors of the binary model. *)
Definition sub_factor (k : nat) : list nat * (list nat -> T) :=
  match nth_error (v_factors g) k with
  | Some fc =>
      if length (fst fc) =? 1 then (map pos (fst fc), fun l => if hd 0 l =? 0 then snd fc [nth (hd 0 (fst fc)) A 0] else snd fc [nth (hd 0 (fst fc)) B 0])
      else if forallb free (fst fc) then (map pos (fst fc), FuseViewFunction T A B fc)
      else (map pos (filter free (fst fc)), FuseViewFixFunction T A B fc)
  | None => ([], fun _ => o_neutral OP)
  end.
(** The labeling that labels of the binary model stand for. *)
Definition unfuse (l : list nat) : list nat := map (fun v => if free v then if nth (pos v) l 0 =? 0 then nth v A 0 else nth v B 0 else nth v A 0) (seq 0 n).
Definition touched (k : nat) : Prop := exists fc v, nth_error (v_factors g) k = Some fc /\ In v (fst fc) /\ free v = true.
Lemma unfuse_nth l v : v < n -> nth v (unfuse l) 0 = if free v then if nth (pos v) l 0 =? 0 then nth v A 0 else nth v B 0 else nth v A 0.
Proof. intros H. unfold unfuse. apply nth_map_seq. exact H. Qed.
Lemma fix_buffer_ok l : forall vs, Forall (fun v => v < n) vs -> fix_buffer A B vs (map (fun v => nth v l 0) (map pos (filter free vs))) = at_vars (unfuse l) vs.
Proof.
  induction vs as [|v vs IH]; intros F; cbn [fix_buffer at_vars map filter]; [reflexivity|]. inversion F; subst. rewrite unfuse_nth by assumption. destruct (nth v A 0 =? nth v B 0) eqn:E.
  - assert (X : free v = false) by (unfold FmProofs.free; rewrite E; reflexivity). rewrite X. f_equal. apply IH. assumption.
  - assert (X : free v = true) by (unfold FmProofs.free; rewrite E; reflexivity). rewrite X. cbn [map hd tl]. f_equal. apply IH. assumption.
Qed.
Lemma sub_factor_val k l : touched k -> snd (sub_factor k) (at_vars l (fst (sub_factor k))) = val T OP g k (unfuse l).
Proof.
  intros (fc & v & E & Hv & Fv). unfold sub_factor, val. rewrite E. destruct (wf_nth T g k fc W E) as [_ F]. fold n in F. destruct (Nat.eqb_spec (length (fst fc)) 1) as [L|L].
  - destruct (fst fc) as [|w [|u r]] eqn:V; try discriminate L. destruct Hv as [->|[]]. cbn [fst snd map at_vars hd]. inversion F; subst. rewrite unfuse_nth by assumption. rewrite Fv. destruct (_ =? 0); reflexivity.
  - destruct (forallb free (fst fc)) eqn:FF; cbn [fst snd].
    + unfold FuseViewFunction. f_equal. rewrite forallb_forall in FF. clear - F FF. induction (fst fc) as [|w vs IH]; cbn [map at_vars combine]; [reflexivity|]. inversion F; subst. cbn [fst snd]. rewrite unfuse_nth by assumption. rewrite (FF w) by (left; reflexivity). f_equal. apply IH; [assumption|]. intros; apply FF; right; assumption.
    + unfold FuseViewFixFunction. f_equal. unfold at_vars at 1. apply fix_buffer_ok. exact F.
Qed.
Lemma sub_factor_wf k : touched k -> StronglySorted lt (fst (sub_factor k)) /\ Forall (fun i => i < pos n) (fst (sub_factor k)) /\ length (fst (sub_factor k)) <= length (match nth_error (v_factors g) k with Some fc => fst fc | None => [] end).
Proof.
  intros (fc & v & E & Hv & Fv). unfold sub_factor. rewrite E. destruct (wf_nth T g k fc W E) as [S F]. fold n in F.
  assert (G : forall vs, StronglySorted lt vs -> Forall (fun v => v < n) vs -> (forall v, In v vs -> free v = true) -> StronglySorted lt (map pos vs) /\ Forall (fun i => i < pos n) (map pos vs)).
  { clear. induction vs as [|v vs IH]; intros S F FF; [split; constructor|]. inversion S as [|? ? S1 S2]; subst. inversion F; subst. destruct IH as [I1 I2]; auto; [intros; apply FF; right; assumption|]. cbn [map]. split.
    - constructor; [exact I1|]. apply Forall_forall. intros i Hi. apply in_map_iff in Hi. destruct Hi as (w & <- & Hw). rewrite Forall_forall in S2. apply pos_lt; [apply FF; left; reflexivity|apply S2; exact Hw].
    - constructor; [|exact I2]. apply pos_lt; [apply FF; left; reflexivity|assumption]. }
  destruct (Nat.eqb_spec (length (fst fc)) 1) as [L|L].
  - cbn [fst]. rewrite map_length. destruct (G (fst fc) S F) as [G1 G2]; [|auto]. destruct (fst fc) as [|w [|u r]]; try discriminate L. destruct Hv as [->|[]]. intros w [<-|[]]. exact Fv.
  - destruct (forallb free (fst fc)) eqn:FF; cbn [fst]; rewrite map_length.
    + destruct (G (fst fc) S F) as [G1 G2]; [|auto]. rewrite forallb_forall in FF. exact FF.
    + destruct (G (filter free (fst fc))) as [G1 G2].
      * clear - S. induction S as [|w vs S IH H]; cbn [filter]; [constructor|]. destruct (free w); [|exact IH]. constructor; [exact IH|]. rewrite Forall_forall in *. intros u Hu. apply H. apply filter_In in Hu. apply Hu.
      * rewrite Forall_forall in *. intros u Hu. apply F. apply filter_In in Hu. apply Hu.
      * intros u Hu. apply filter_In in Hu. apply Hu.
      * split; [exact G1|]. split; [exact G2|]. clear. induction (fst fc) as [|w vs IH]; cbn [filter length]; [lia|]. destruct (free w); cbn [length]; lia.
Qed.

(** fillSubModel. *)
Section Fill.
Variable m : fmover T.
Hypothesis S : set_up m.
Definition has (k v : nat) : Prop := exists fc, nth_error (v_factors g) k = Some fc /\ In v (fst fc).
Definition single (k : nat) : Prop := exists fc, nth_error (v_factors g) k = Some fc /\ length (fst fc) = 1.
Lemma adj_In v k : In k (v_adj T g v) <-> has k v.
Proof.
  unfold v_adj, has. rewrite filter_In, in_seq. split.
  - intros [_ H]. destruct (nth_error (v_factors g) k) as [[vis f]|] eqn:E; [|discriminate H]. apply existsb_exists in H. destruct H as (u & Hu & X). apply Nat.eqb_eq in X. subst u. exists (vis, f). auto.
  - intros (fc & E & H). split; [assert (k < length (v_factors g)) by (apply nth_error_Some; congruence); lia|]. rewrite E. destruct fc as [vis f]. apply existsb_exists. exists v. split; [exact H|apply Nat.eqb_refl].
Qed.
Lemma adj_NoDup v : NoDup (v_adj T g v). Proof. apply NoDup_filter, seq_NoDup. Qed.
Record filled (F : list nat) (st : list nat * list (list nat * (list nat -> T))) : Prop := {
  fl_nd : NoDup F; fl_added : forall k, In k (fst st) <-> In k F /\ ~ single k; fl_map : snd st = map sub_factor F }.
Lemma add_ok lvi vi k F st : filled F st -> vi < n -> free vi = true -> lvi = pos vi -> has k vi -> (single k -> ~ In k F) ->
  exists st' F', fm_addFactor T g m lvi vi st k = Ret st' /\ filled F' st' /\ forall j, In j F' <-> In j F \/ j = k.
Proof.
  intros [ND AD MP] Hv Fv -> (fc & E & Hin) NS. unfold fm_addFactor. unfold rd at 1. rewrite E. cbn [bind]. destruct (wf_nth T g k fc W E) as [_ F0]. fold n in F0. rewrite (su_A m S), (su_B m S).
  destruct (Nat.eqb_spec (length (fst fc)) 1) as [L|L].
  - assert (SK : single k) by (exists fc; auto). specialize (NS SK). eexists _, (F ++ [k]). split; [reflexivity|]. split.
    + constructor; cbn [fst snd].
      * apply NoDup_app_intro; [exact ND|repeat constructor; intros []|]. intros j H1 [<-|[]]. contradiction.
      * intros j. rewrite AD, in_app_iff. split; [intros [H1 H2]; auto|]. intros [[H1|[<-|[]]] H2]; [auto|contradiction].
      * rewrite map_app, MP. f_equal. cbn [map]. f_equal. unfold sub_factor. rewrite E, L. cbn [Nat.eqb]. destruct (fst fc) as [|w [|u r]]; try discriminate L. destruct Hin as [->|[]]. reflexivity.
    + intros j. rewrite in_app_iff. cbn. intuition.
  - assert (SK : ~ single k) by (intros (fc' & E' & L'); congruence). destruct (existsb (Nat.eqb k) (fst st)) eqn:X.
    + apply existsb_exists in X. destruct X as (j & Hj & X). apply Nat.eqb_eq in X. subst j. exists st, F. split; [reflexivity|]. split; [constructor; assumption|]. intros j. split; [auto|]. intros [H| ->]; [exact H|]. apply AD in Hj. apply Hj.
    + assert (NF : ~ In k F). { intros H. assert (In k (fst st)) by (apply AD; auto). assert (existsb (Nat.eqb k) (fst st) = true) by (apply existsb_exists; exists k; split; [assumption|apply Nat.eqb_refl]). congruence. }
      assert (G : forall vs, Forall (fun v => v < n) vs -> (forall v, In v vs -> free v = true) -> mapM (rd (fm_g2l m)) vs = Ret (map pos vs)).
      { intros vs H1 H2. apply mapM_Ret. intros v Hvs. rewrite Forall_forall in H1. rewrite rd_nth by (rewrite (su_gl m S); apply H1; exact Hvs). rewrite (su_g2l m S); auto. }
      assert (FIN : forall sf, sf = sub_factor k -> filled (F ++ [k]) (k :: fst st, snd st ++ [sf])).
      { intros sf ->. constructor; cbn [fst snd].
        - apply NoDup_app_intro; [exact ND|repeat constructor; intros []|]. intros j H1 [<-|[]]. contradiction.
        - intros j. cbn [In]. rewrite AD, in_app_iff. cbn [In]. split; [intros [<-|[H1 H2]]; auto|]. intros [[H1|[<-|[]]] H2]; auto.
        - rewrite map_app, MP. reflexivity. }
      destruct (forallb _ (fst fc)) eqn:FF.
      * rewrite G by (try assumption; rewrite forallb_forall in FF; exact FF). cbn [bind]. eexists _, (F ++ [k]). split; [reflexivity|]. split; [|intros j; rewrite in_app_iff; cbn; intuition]. apply FIN. unfold sub_factor. rewrite E, (proj2 (Nat.eqb_neq _ _) L). unfold FmProofs.free. rewrite FF. reflexivity.
      * rewrite G. 2:{ rewrite Forall_forall in *. intros v H. apply filter_In in H. apply F0, H. } 2:{ intros v H. apply filter_In in H. apply H. }
        cbn [bind]. eexists _, (F ++ [k]). split; [reflexivity|]. split; [|intros j; rewrite in_app_iff; cbn; intuition]. apply FIN. unfold sub_factor. rewrite E, (proj2 (Nat.eqb_neq _ _) L). unfold FmProofs.free. rewrite FF. reflexivity.
Qed.
Lemma adds_ok vi : vi < n -> free vi = true -> forall ks F st, NoDup ks -> (forall k, In k ks -> has k vi) -> filled F st -> (forall k, In k ks -> single k -> ~ In k F) ->
  exists st' F', foldM (fm_addFactor T g m (pos vi) vi) ks st = Ret st' /\ filled F' st' /\ forall j, In j F' <-> In j F \/ In j ks.
Proof.
  intros Hv Fv. induction ks as [|k ks IH]; intros F st ND HK FL NS; cbn [foldM]; [exists st, F; split; [reflexivity|]; split; [exact FL|]; intros j; cbn; intuition|].
  inversion ND; subst. destruct (add_ok (pos vi) vi k F st FL Hv Fv eq_refl (HK k (or_introl eq_refl)) (NS k (or_introl eq_refl))) as (st1 & F1 & E1 & FL1 & I1). rewrite E1. cbn [bind].
  destruct (IH F1 st1) as (st' & F' & E' & FL' & I'); auto; [intros; apply HK; right; assumption|intros j Hj Sj H; apply I1 in H; destruct H as [H| ->]; [apply (NS j (or_intror Hj) Sj H)|contradiction]|].
  exists st', F'. split; [exact E'|]. split; [exact FL'|]. intros j. rewrite I', I1. cbn. intuition.
Qed.
Lemma fill_ok : 0 < pos n -> exists F, fm_subModel T g m = Ret (mkGmv (repeat 2 (pos n)) (map sub_factor F)) /\ NoDup F /\ forall k, In k F <-> touched k.
Proof.
  intros HP. unfold fm_subModel. rewrite (su_n m S). rewrite (proj2 (Nat.eqb_neq _ _)) by lia.
  assert (G : forall j, j <= pos n -> exists st F, foldM (fun st lvi => vi <- rd (fm_l2g m) lvi ;; foldM (fm_addFactor T g m lvi vi) (v_adj T g vi) st) (seq 0 j) ([], []) = Ret st /\ filled F st /\ forall k, In k F <-> exists i, i < j /\ has k (nth i (frees n) 0)).
  { induction j as [|j IH]; intros Hj.
    - exists ([], []), []. split; [reflexivity|]. split; [constructor; cbn; [constructor| |reflexivity]; intros k; split; [intros []|intros [[] _]]|]. intros k. split; [intros []|intros (i & Hi & _); lia].
    - destruct IH as (st & F & E & FL & I); [lia|]. rewrite seq_S, foldM_app, E. cbn [bind foldM Nat.add]. pose proof (pos_bound A B n) as PB. rewrite rd_nth by (rewrite (su_lg m S); lia). cbn [bind]. rewrite (su_l2g m S) by lia.
      destruct (pos_frees A B n j ltac:(lia)) as (P1 & P2 & P3). set (vi := nth j (frees n) 0) in *.
      destruct (adds_ok vi P1 P2 (v_adj T g vi) F st (adj_NoDup vi)) as (st' & F' & E' & FL' & I'); [intros k Hk; apply adj_In; exact Hk|exact FL| |].
      + intros k Hk (fc & Ek & Lk) HF. apply adj_In in Hk. destruct Hk as (fc' & Ek' & Hin). apply I in HF. destruct HF as (i & Hi & (fc2 & Ek2 & Hin2)). assert (fc' = fc) by congruence. assert (fc2 = fc) by congruence. subst fc' fc2.
        destruct (fst fc) as [|w [|u r]]; try discriminate Lk. destruct Hin as [->|[]]. destruct Hin2 as [Q|[]]. destruct (pos_frees A B n i ltac:(lia)) as (_ & _ & Q3). rewrite <- Q in Q3. lia.
      + rewrite P3 in E'. rewrite E'. cbn [bind]. exists st', F'. split; [reflexivity|]. split; [exact FL'|]. intros k. rewrite I', I, adj_In. split.
        * intros [(i & Hi & H)|H]; [exists i; split; [lia|exact H]|exists j; split; [lia|exact H]].
        * intros (i & Hi & H). destruct (Nat.eq_dec i j) as [->|N]; [right; exact H|left; exists i; split; [lia|exact H]]. }
  destruct (G (pos n) (Nat.le_refl _)) as (st & F & E & [ND AD MP] & I). rewrite E. cbn [bind]. exists F. rewrite MP. split; [reflexivity|]. split; [exact ND|]. intros k. rewrite I. unfold touched. split.
  - intros (i & Hi & (fc & Ek & Hin)). destruct (pos_frees A B n i Hi) as (_ & Q & _). exists fc, (nth i (frees n) 0). auto.
  - intros (fc & v & Ek & Hin & Fv). destruct (wf_nth T g k fc W Ek) as [_ F0]. rewrite Forall_forall in F0. specialize (F0 v Hin). fold n in F0. exists (pos v). split; [apply pos_lt; assumption|]. rewrite frees_pos by assumption. exists fc. auto.
Qed.

(** The result. *)
Lemma assign_ok label f : (forall i, i < pos n -> label i = Ret (f i)) -> fm_assign T m label = Ret (map (fun v => if free v then match f (pos v) with Some false => nth v A 0 | Some true => nth v B 0 | None => nth v (fm_best m) 0 end else nth v A 0) (seq 0 n)).
Proof.
  intros HL. unfold fm_assign. rewrite (su_n m S).
  assert (LBest : length (fm_best m) = n) by (unfold fm_best; rewrite (su_A m S), (su_B m S); destruct (fm_bestB m); [apply lenB|apply lenA]).
  set (X := fun v => match f (pos v) with Some false => nth v A 0 | Some true => nth v B 0 | None => nth v (fm_best m) 0 end).
  assert (G : forall j, j <= pos n -> foldM (fun res lvi => gvi <- rd (fm_l2g m) lvi ;; l <- label lvi ;; x <- (match l with Some false => rd (fm_A m) gvi | Some true => rd (fm_B m) gvi | None => rd (fm_best m) gvi end) ;; wr res gvi x) (seq 0 j) (fm_res m) =
     Ret (map (fun v => if free v && (pos v <? j) then X v else nth v A 0) (seq 0 n))).
  { induction j as [|j IH]; intros Hj.
    - cbn [seq foldM]. rewrite (su_res m S). f_equal. rewrite <- (map_nth_seq A) at 1. rewrite lenA. apply map_ext. intros v. rewrite andb_false_r. reflexivity.
    - rewrite seq_S, foldM_app, IH by lia. cbn [bind foldM Nat.add]. pose proof (pos_bound A B n) as PB. rewrite rd_nth by (rewrite (su_lg m S); lia). cbn [bind]. rewrite (su_l2g m S) by lia. destruct (pos_frees A B n j ltac:(lia)) as (P1 & P2 & P3). set (vi := nth j (frees n) 0) in *.
      rewrite HL by lia. cbn [bind]. rewrite (su_A m S), (su_B m S).
      assert (EX : match f j with Some false => rd A vi | Some true => rd B vi | None => rd (fm_best m) vi end = Ret (X vi)). { unfold X. rewrite P3. destruct (f j) as [[|]|]; apply rd_nth; rewrite ?lenA, ?lenB, ?LBest; exact P1. }
      rewrite EX. cbn [bind]. rewrite wr_nth by (rewrite map_length, seq_length; exact P1). cbn [bind]. f_equal. rewrite map_length, seq_length. apply map_ext_in. intros v Hv. apply in_seq in Hv. rewrite nth_map_seq by lia.
      destruct (Nat.eqb_spec v vi) as [->|N]; [rewrite P2, P3, (proj2 (Nat.ltb_lt j (Datatypes.S j))) by lia; reflexivity|].
      destruct (free v) eqn:Fv; cbn [andb]; [|reflexivity]. assert (NP : pos v <> j) by (intros Q; apply N; apply (pos_inj A B); auto; lia).
      destruct (Nat.ltb_spec (pos v) j), (Nat.ltb_spec (pos v) (Datatypes.S j)); try reflexivity; lia. }
  rewrite G by lia. f_equal. apply map_ext_in. intros v Hv. apply in_seq in Hv. destruct (free v) eqn:Fv; cbn [andb]; [|reflexivity]. rewrite (proj2 (Nat.ltb_lt _ _)); [reflexivity|]. apply pos_lt; [exact Fv|lia].
Qed.
End Fill.

(** Energies. *)
Variable fin : T -> Prop.
Hypothesis OL : op_laws fin OP.
Hypothesis AL : acc_laws fin OP ACC.
Hypothesis FG : fin_gmv fin g.

Lemma unfuse_length l : length (unfuse l) = n. Proof. unfold unfuse. rewrite map_length, seq_length. reflexivity. Qed.
Lemma fused_labeling z : fused A B z -> labeling g z.
Proof. intros [L H]. apply labeling_nth. rewrite lenA in L. split; [exact L|]. intros v Hv. pose proof lenA. pose proof lenB. apply labeling_nth in LA, LB. destruct (H v) as [-> | ->]; [apply LA|apply LB]; lia. Qed.
Lemma unfuse_fused l : fused A B (unfuse l).
Proof.
  split; [rewrite unfuse_length, lenA; reflexivity|]. intros i. destruct (Nat.lt_ge_cases i n) as [H|H].
  - rewrite unfuse_nth by exact H. destruct (free i); [|auto]. destruct (_ =? 0); auto.
  - left. rewrite !nth_overflow; [reflexivity|rewrite lenA; exact H|rewrite unfuse_length; exact H].
Qed.
Lemma fused_unfuse z : fused A B z -> exists l, in_shape (repeat 2 (pos n)) l /\ unfuse l = z.
Proof.
  intros [L H]. exists (map (fun i => if nth (nth i (frees n) 0) z 0 =? nth (nth i (frees n) 0) A 0 then 0 else 1) (seq 0 (pos n))). split.
  - change (labeling (mkGmv (repeat 2 (pos n)) ([] : list (list nat * (list nat -> T)))) (map (fun i => if nth (nth i (frees n) 0) z 0 =? nth (nth i (frees n) 0) A 0 then 0 else 1) (seq 0 (pos n)))).
    apply labeling_nth. cbn [v_labels]. rewrite map_length, seq_length, repeat_length. split; [reflexivity|]. intros v Hv. rewrite nth_map_seq by exact Hv. rewrite nth_repeat_lt by exact Hv. destruct (_ =? _); lia.
  - rewrite lenA in L. apply eq_trans with (map (fun i => nth i z 0) (seq 0 n)); [|rewrite <- L; apply map_nth_seq]. unfold unfuse. apply map_ext_in. intros v Hv. apply in_seq in Hv. destruct (free v) eqn:F.
    + rewrite nth_map_seq by (apply pos_lt; [exact F|lia]). rewrite frees_pos by (auto; lia). destruct (Nat.eqb_spec (nth v z 0) (nth v A 0)) as [E|E]; cbn [Nat.eqb]; [auto|].
      destruct (H v); congruence.
    + unfold FmProofs.free in F. apply negb_false_iff, Nat.eqb_eq in F. destruct (H v); congruence.
Qed.
Section Sub.
Variable F : list nat.
Hypothesis ND : NoDup F.
Hypothesis HF : forall k, In k F <-> touched k.
Let sub := mkGmv (repeat 2 (pos n)) (map sub_factor F).
Lemma sub_wf : wf_gmv sub.
Proof.
  split; cbn [sub v_factors v_labels].
  - apply Forall_forall. intros fc Hfc. apply in_map_iff in Hfc. destruct Hfc as (k & <- & Hk). rewrite repeat_length. apply HF in Hk. destruct (sub_factor_wf k Hk) as (S1 & S2 & _). auto.
  - unfold positive. apply Forall_forall. intros x Hx. apply repeat_spec in Hx. lia.
Qed.
Lemma sub_binary d : order_at_most d g -> binary_model d sub.
Proof.
  intros HD. split; [apply sub_wf|]. split.
  - apply Forall_forall. intros x Hx. apply repeat_spec in Hx. exact Hx.
  - apply Forall_forall. intros fc Hfc. apply in_map_iff in Hfc. destruct Hfc as (k & <- & Hk). apply HF in Hk. destruct (sub_factor_wf k Hk) as (_ & _ & S3). destruct Hk as (fc & v & E & _). rewrite E in S3. unfold order_at_most in HD. rewrite Forall_forall in HD. specialize (HD fc (nth_error_In _ _ E)). lia.
Qed.
Lemma sub_fin : fin_gmv fin sub.
Proof.
  apply Forall_forall. intros fc Hfc l Hl. apply in_map_iff in Hfc. destruct Hfc as (k & <- & Hk). apply HF in Hk. rewrite sub_factor_val by exact Hk. apply val_fin; auto. apply fused_labeling, unfuse_fused.
Qed.
Definition const : T := big T OP (filter (fun k => negb (GmProofs.mem k F)) (seq 0 (length (v_factors g)))) (fun k => val T OP g k A).
Lemma const_fin : fin const. Proof. unfold const. apply big_fin; [exact OL|]. intros k _. apply val_fin; auto. Qed.
Lemma total_sub l : total OP sub l = big T OP F (fun k => val T OP g k (unfuse l)).
Proof.
  unfold total. cbn [sub v_factors].
  assert (G : forall L acc, fold_left (fun acc fc => o_op OP (snd fc (at_vars l (fst fc))) acc) (map sub_factor L) acc = fold_left (fun acc k => o_op OP (snd (sub_factor k) (at_vars l (fst (sub_factor k)))) acc) L acc).
  { induction L as [|k L IH]; intros acc; cbn; auto. }
  assert (FV : forall k, In k F -> fin (val T OP g k (unfuse l))) by (intros; apply val_fin; auto; apply fused_labeling, unfuse_fused).
  rewrite G, big_fold_left with (fin := fin); [|exact OL|apply (ol_neutral _ _ OL)|].
  - rewrite (big_ext T OP F _ (fun k => val T OP g k (unfuse l))) by (intros k Hk; apply sub_factor_val, HF; exact Hk). rewrite (ol_comm _ _ OL); [apply (ol_unit _ _ OL)| |apply (ol_neutral _ _ OL)]; apply big_fin; auto.
  - intros k Hk. rewrite sub_factor_val by (apply HF; exact Hk). auto.
Qed.
Lemma total_unfuse l : total OP g (unfuse l) = o_op OP (total OP sub l) const.
Proof.
  rewrite (total_split T OP fin OL g F W FG ND) by (try (apply fused_labeling, unfuse_fused); intros k Hk; apply HF in Hk; destruct Hk as (fc & v & E & _); apply nth_error_Some; congruence).
  rewrite total_sub. f_equal. apply rest_agree. intros k fc E NI v Hv. destruct (wf_nth T g k fc W E) as [_ F0]. rewrite Forall_forall in F0. specialize (F0 v Hv). fold n in F0. rewrite unfuse_nth by exact F0.
  destruct (free v) eqn:Fv; [|reflexivity]. exfalso. apply NI, HF. exists fc, v. auto.
Qed.
Lemma total_sub_fin l : fin (total OP sub l).
Proof. rewrite total_sub. apply big_fin; auto. intros. apply val_fin; auto. apply fused_labeling, unfuse_fused. Qed.
Lemma compare_sub l1 l2 : a_bop ACC (total OP g (unfuse l1)) (total OP g (unfuse l2)) = a_bop ACC (total OP sub l1) (total OP sub l2).
Proof.
  rewrite !total_unfuse. rewrite !(ol_comm _ _ OL (total OP sub _) const) by (apply total_sub_fin || apply const_fin). apply (al_mono _ _ _ AL); try apply total_sub_fin. apply const_fin.
Qed.
Lemma best_sub l : optimal OP ACC sub l -> best_fusion OP ACC g A B (unfuse l).
Proof. intros [_ H]. split; [apply unfuse_fused|]. intros z HZ. destruct (fused_unfuse z HZ) as (l' & L' & <-). unfold as_good. rewrite compare_sub. apply H. exact L'. Qed.
End Sub.

Section Finish.
Variable m : fmover T.
Hypothesis S : set_up m.
Hypothesis VA : fm_vA m = total OP g A.
Hypothesis VB : fm_vB m = total OP g B.
Lemma tfin z : fused A B z -> fin (total OP g z). Proof. intros H. apply total_fin; auto. apply fused_labeling. exact H. Qed.
Lemma fusedA : fused A B A. Proof. split; auto. Qed.
Lemma fusedB : fused A B B. Proof. split; [rewrite lenA, lenB; reflexivity|auto]. Qed.
Lemma best_fused : fused A B (fm_best m). Proof. unfold fm_best. rewrite (su_A m S), (su_B m S). destruct (fm_bestB m); [apply fusedB|apply fusedA]. Qed.
Lemma best_value : fm_vBest m = total OP g (fm_best m). Proof. unfold fm_best, fm_vBest. rewrite (su_A m S), (su_B m S), VA, VB. destruct (fm_bestB m); reflexivity. Qed.
Lemma asym a b : fin a -> fin b -> a_bop ACC a b = true -> a_bop ACC b a = false.
Proof. intros Ha Hb H. destruct (a_bop ACC b a) eqn:E; [|reflexivity]. rewrite <- (al_irrefl _ _ _ AL a Ha). symmetry. apply (al_trans _ _ _ AL a b a); auto. Qed.
Lemma best_good : as_good OP ACC g (fm_best m) A /\ as_good OP ACC g (fm_best m) B.
Proof.
  unfold as_good, fm_best. rewrite (su_best m S), VA, VB, (su_A m S), (su_B m S). pose proof (tfin A fusedA) as FA. pose proof (tfin B fusedB) as FB.
  destruct (a_bop ACC (total OP g A) (total OP g B)) eqn:E; cbn [negb]; split; auto; try (apply (al_irrefl _ _ _ AL); assumption). apply asym; auto.
Qed.
Lemma as_good_trans x y z : fused A B x -> fused A B y -> fused A B z -> as_good OP ACC g x y -> as_good OP ACC g y z -> as_good OP ACC g x z.
Proof. unfold as_good. intros. apply (al_negtrans _ _ _ AL _ (total OP g y)); auto using tfin. Qed.
Lemma as_good_refl x : fused A B x -> as_good OP ACC g x x. Proof. intros. apply (al_irrefl _ _ _ AL). auto using tfin. Qed.
Lemma finish_ok z : fused A B z -> exists r, fm_finish T OP ACC g m z = Ret r /\ good_fusion OP ACC g A B r /\ as_good OP ACC g (snd r) z.
Proof.
  intros HZ. unfold fm_finish. rewrite v_evaluate_total by (auto; destruct HZ as [-> _]; apply lenA). cbn [bind]. rewrite best_value. pose proof best_fused as BF. pose proof best_good as [GA GB].
  destruct (a_bop ACC (total OP g (fm_best m)) (total OP g z)) eqn:E.
  - unfold copy_into. rewrite (proj1 HZ), (proj1 BF), Nat.leb_refl. rewrite <- (proj1 HZ), skipn_all, app_nil_r. cbn [bind]. eexists. split; [reflexivity|]. cbn [snd fst]. split; [|apply asym; auto using tfin]. repeat split; auto using fused_labeling; apply BF.
  - eexists. split; [reflexivity|]. cbn [snd fst]. split; [|apply as_good_refl; exact HZ]. split; [reflexivity|]. split; [apply fused_labeling; exact HZ|]. split; [exact HZ|]. split; apply as_good_trans with (fm_best m); auto using fusedA, fusedB.
Qed.
Lemma finish_best z : best_fusion OP ACC g A B z -> exists r, fm_finish T OP ACC g m z = Ret r /\ good_fusion OP ACC g A B r /\ best_fusion OP ACC g A B (snd r).
Proof.
  intros [HZ HB]. destruct (finish_ok z HZ) as (r & E & G & C). exists r. split; [exact E|]. split; [exact G|]. destruct G as (_ & _ & Fr & _). split; [exact Fr|]. intros z' H'. apply as_good_trans with z; auto.
Qed.
(** fuse with a solver that returns a labeling. *)
Lemma assign_labels l : in_shape (repeat 2 (pos n)) l -> fm_assign T m (fun lvi => x <- rd l lvi ;; Ret (Some (negb (x =? 0)))) = Ret (unfuse l).
Proof.
  intros Hl. assert (LL : length l = pos n) by (apply Forall2_length_eq in Hl; rewrite repeat_length in Hl; congruence).
  rewrite (assign_ok m S _ (fun i => Some (negb (nth i l 0 =? 0)))) by (intros i Hi; rewrite rd_nth by lia; reflexivity).
  f_equal. unfold unfuse. apply map_ext. intros v. destruct (free v); [|reflexivity]. destruct (nth (pos v) l 0 =? 0); reflexivity.
Qed.
Lemma start_labeling k F : k < 2 -> labeling (mkGmv (repeat 2 (pos n)) (map sub_factor F)) (repeat k (pos n)).
Proof. intros Hk. apply labeling_nth. cbn [v_labels]. rewrite !repeat_length. split; [reflexivity|]. intros v Hv. rewrite !nth_repeat_lt by exact Hv. exact Hk. Qed.
Lemma fuse_ok solver warm d : 0 < pos n -> order_at_most d g -> returns_labelings d solver ->
  exists r, fm_fuse T OP ACC g solver warm m = Ret r /\ good_fusion OP ACC g A B r /\ (exact_solver fin OP ACC d solver -> best_fusion OP ACC g A B (snd r)).
Proof.
  intros HP HD HR. destruct (fill_ok m S HP) as (F & E & ND & HF). unfold fm_fuse. rewrite E. cbn [bind]. set (sub := mkGmv _ _) in *.
  set (start := if warm then Some (repeat (fm_bestLabel m) (fm_n m)) else None).
  assert (SO : start_ok sub start). { unfold start. destruct warm; cbn; [|exact I]. rewrite (su_n m S). apply start_labeling. unfold fm_bestLabel. destruct (fm_bestB m); lia. }
  pose proof (sub_binary F HF d HD) as SB. destruct (HR sub start SB SO) as (l & El & Ll). rewrite El. cbn [bind]. rewrite (assign_labels l Ll). cbn [bind].
  destruct (finish_ok (unfuse l) (unfuse_fused l)) as (r & Er & G & C). exists r. split; [exact Er|]. split; [exact G|]. intros EX.
  pose proof (best_sub F ND HF l (EX sub start l SB (sub_fin F HF) SO El)) as BS. destruct (finish_best (unfuse l) BS) as (r' & Er' & _ & BR). assert (r' = r) by congruence. subst r'. exact BR.
Qed.

(** fuseQpbo. *)
Definition bits (b : nat -> bool) : list nat := map (fun i => if b i then 1 else 0) (seq 0 (pos n)).
Lemma bits_shape b : in_shape (repeat 2 (pos n)) (bits b).
Proof.
  change (labeling (mkGmv (repeat 2 (pos n)) ([] : list (list nat * (list nat -> T)))) (bits b)). apply labeling_nth. unfold bits. cbn [v_labels]. rewrite map_length, seq_length, repeat_length. split; [reflexivity|]. intros v Hv. rewrite nth_map_seq by exact Hv. rewrite nth_repeat_lt by exact Hv. destruct (b v); lia.
Qed.
Lemma assign_fused f : fused A B (map (fun v => if free v then match f (pos v) with Some false => nth v A 0 | Some true => nth v B 0 | None => nth v (fm_best m) 0 end else nth v A 0) (seq 0 n)).
Proof.
  split; [rewrite map_length, seq_length, lenA; reflexivity|]. intros i. destruct (Nat.lt_ge_cases i n) as [H|H].
  - rewrite nth_map_seq by exact H. destruct (free i); [|auto]. destruct (f (pos i)) as [[|]|]; auto. apply best_fused.
  - left. rewrite !nth_overflow; [reflexivity|rewrite lenA; exact H|rewrite map_length, seq_length; exact H].
Qed.
Lemma terms_ok : order_at_most 2 g -> forall F, (forall k, In k F -> touched k) -> exists terms, mapM (fm_qpterm T) (map sub_factor F) = Ret terms /\ qp_nodes (pos n) terms /\
  forall (b : nat -> bool) (acc : T), fold_left (fun acc t => o_op OP (match t with PUnary v e0 e1 => if b v then e1 else e0 | PPair v w e00 e01 e10 e11 => if b v then if b w then e11 else e10 else if b w then e01 else e00 end) acc) terms acc =
    fold_left (fun acc fc => o_op OP (snd fc (at_vars (bits b) (fst fc))) acc) (map sub_factor F) acc.
Proof.
  intros HO. induction F as [|k F IH]; intros HF; [exists []; split; [reflexivity|]; split; [constructor|reflexivity]|].
  destruct IH as (terms & E & Q & V); [intros; apply HF; right; assumption|]. cbn [map mapM]. pose proof (HF k (or_introl eq_refl)) as HK. destruct (sub_factor_wf k HK) as (_ & S2 & S3).
  assert (NE : fst (sub_factor k) <> []).
  { destruct HK as (fc & v & Ek & Hv & Fv). unfold sub_factor. rewrite Ek. destruct (length (fst fc) =? 1); [|destruct (forallb free (fst fc))]; cbn [fst]; intros X; try (destruct (fst fc); [destruct Hv|discriminate X]).
    assert (In v (filter free (fst fc))) by (apply filter_In; auto). destruct (filter free (fst fc)); [destruct H|discriminate X]. }
  assert (LE : length (fst (sub_factor k)) <= 2). { destruct HK as (fc & v & Ek & _). rewrite Ek in S3. unfold order_at_most in HO. rewrite Forall_forall in HO. specialize (HO fc (nth_error_In _ _ Ek)). lia. }
  assert (NB : forall b i, i < pos n -> nth i (bits b) 0 = if b i then 1 else 0) by (intros b i Hi; unfold bits; apply nth_map_seq; exact Hi).
  unfold fm_qpterm at 1. destruct (fst (sub_factor k)) as [|v [|w [|u r]]] eqn:EV; [contradiction| | |cbn in LE; lia].
  - inversion S2; subst. rewrite E. cbn [bind]. eexists. split; [reflexivity|]. split; [constructor; assumption|]. intros b acc. cbn [fold_left]. rewrite V. f_equal. f_equal. rewrite EV. cbn [at_vars map]. rewrite NB by assumption. destruct (b v); reflexivity.
  - inversion S2 as [|? ? H1 H2]; subst. inversion H2; subst. rewrite E. cbn [bind]. eexists. split; [reflexivity|]. split; [constructor; [split; assumption|assumption]|]. intros b acc. cbn [fold_left]. rewrite V. f_equal. f_equal. rewrite EV. cbn [at_vars map]. rewrite !NB by assumption. destruct (b v), (b w); reflexivity.
Qed.
Lemma bits_ex l : in_shape (repeat 2 (pos n)) l -> l = bits (fun i => negb (nth i l 0 =? 0)).
Proof.
  intros H. change (labeling (mkGmv (repeat 2 (pos n)) ([] : list (list nat * (list nat -> T)))) l) in H. apply labeling_nth in H. cbn [v_labels] in H. rewrite repeat_length in H. destruct H as [L H]. rewrite <- (map_nth_seq l) at 1. rewrite L. unfold bits. apply map_ext_in. intros i Hi. apply in_seq in Hi. specialize (H i ltac:(lia)). rewrite nth_repeat_lt in H by lia. destruct (nth i l 0) as [|[|x]]; cbn; lia.
Qed.
Lemma fuseQpbo_ok solver : 0 < pos n -> order_at_most 2 g ->
  exists r, fm_fuseQpbo T OP ACC g solver m = Ret r /\ good_fusion OP ACC g A B r /\ (qp_exact OP ACC solver -> best_fusion OP ACC g A B (snd r)).
Proof.
  intros HP HD. destruct (fill_ok m S HP) as (F & E & ND & HF). unfold fm_fuseQpbo. rewrite E. cbn [bind v_factors]. destruct (terms_ok HD F) as (terms & ET & QN & TV); [intros k; apply HF|]. rewrite ET. cbn [bind]. rewrite (su_n m S).
  rewrite (assign_ok m S _ (fun lvi => solver (pos n) terms (fm_bestLabel m) lvi)) by reflexivity. cbn [bind].
  destruct (finish_ok _ (assign_fused (fun lvi => solver (pos n) terms (fm_bestLabel m) lvi))) as (r & Er & G & C). exists r. split; [exact Er|]. split; [exact G|]. intros EX.
  destruct (EX (pos n) terms (fm_bestLabel m) QN) as (b & HB & OB).
  assert (EZ : map (fun v => if free v then match solver (pos n) terms (fm_bestLabel m) (pos v) with Some false => nth v A 0 | Some true => nth v B 0 | None => nth v (fm_best m) 0 end else nth v A 0) (seq 0 n) = unfuse (bits b)).
  { unfold unfuse. apply map_ext_in. intros v Hv. apply in_seq in Hv. destruct (free v) eqn:Fv; [|reflexivity]. assert (P : pos v < pos n) by (apply pos_lt; [exact Fv|lia]). rewrite HB by exact P. unfold bits. rewrite nth_map_seq by exact P. destruct (b (pos v)); reflexivity. }
  rewrite EZ in Er. assert (BS : best_fusion OP ACC g A B (unfuse (bits b))).
  { apply (best_sub F ND HF). split; [apply bits_shape|]. intros l Hl. rewrite (bits_ex l Hl). unfold total. cbn [v_factors]. rewrite <- !TV. apply OB. }
  destruct (finish_best _ BS) as (r' & Er' & _ & BR). assert (r' = r) by congruence. subst r'. exact BR.
Qed.
End Finish.
End Mover.
