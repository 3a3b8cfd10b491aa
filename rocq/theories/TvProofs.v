From Coq Require Import QArith Qcanon Sorted.
From Verif Require Import Base Values ConstraintModel ConstraintProofs TvModel TvSpec.
Open Scope nat_scope.

Lemma steps_app a b : steps (a ++ b) = steps a ++ steps b.
Proof. unfold steps. apply flat_map_app. Qed.
Lemma combine_snoc {A} (l : list A) x k : combine (seq k (length (l ++ [x]))) (l ++ [x]) = combine (seq k (length l)) l ++ [(k + length l, x)].
Proof. revert k. induction l as [|y l IH]; intros k; cbn; [rewrite Nat.add_0_r; reflexivity|]. rewrite IH. replace (S k + length l) with (k + S (length l)) by lia. reflexivity. Qed.
Lemma recorded_step n h t1 t2 v b : recorded n (h ++ [VStep t1 t2 v b]) =
  recorded n h ++ (if S (length (steps h)) mod n =? 0 then [(S (length (steps h)), (t1, t2, v, b))] else []).
Proof. unfold recorded. rewrite steps_app. change (steps [VStep t1 t2 v b]) with [(t1, t2, v, b)]. rewrite combine_snoc, filter_app. cbn [filter fst].
  change (1 + length (steps h)) with (S (length (steps h))). destruct (_ =? 0); reflexivity. Qed.
Lemma recorded_other n h c : steps [c] = [] -> recorded n (h ++ [c]) = recorded n h.
Proof. intros e. unfold recorded. rewrite steps_app, e, app_nil_r. reflexivity. Qed.
Lemma zsum_app a b : zsum (a ++ b) = (zsum a + zsum b)%Z.
Proof. induction a as [|x a IH]; cbn; [reflexivity|]. fold (zsum (a ++ b)) (zsum a). lia. Qed.

Fixpoint reading (t : Z) (h : list vcall) : Z :=
  match h with [] => t | VBegin _ t2 _ _ :: h | VStep _ t2 _ _ :: h | VLog _ t2 _ _ :: h => reading t2 h | VEnd t1 _ _ :: h => reading t1 h | VAdd _ :: h => reading t h end.
Lemma clock_app h h' t : clock t (h ++ h') <-> clock t h /\ clock (reading t h) h'.
Proof. revert t. induction h as [|c h IH]; intros t; [cbn; tauto|]. destruct c; cbn; rewrite IH; tauto. Qed.
Lemma sorted_snoc l x : StronglySorted Z.le l -> Forall (fun y => (y <= x)%Z) l -> StronglySorted Z.le (l ++ [x]).
Proof. intros S. induction S as [|a l S IH F]; intros G; [repeat constructor|]. inversion G; subst. cbn. constructor; [auto|]. apply Forall_app. auto. Qed.

Section Runs.
Variables (n : nat) (tl : option Z) (gl : Qc).

Lemma run_snoc h c s : vi_run n tl gl (h ++ [c]) s = ' (s1, fs) <- vi_run n tl gl h s ;; ' (s2, f) <- vi_call n tl gl s1 c ;; Ret (s2, fs ++ f).
Proof. unfold vi_run. rewrite foldM_app. destruct (foldM _ h (s, [])) as [[s1 fs]| | |]; try reflexivity. cbn. destruct (vi_call n tl gl s1 c) as [[s2 f]| | |]; reflexivity. Qed.
Lemma run_cons c h s : vi_run n tl gl (c :: h) s = ' (s1, f) <- vi_call n tl gl s c ;; ' (s2, fs) <- vi_run n tl gl h s1 ;; Ret (s2, f ++ fs).
Proof.
  revert c s. induction h as [|c' h IH] using rev_ind; intros c s.
  - unfold vi_run. cbn. destruct (vi_call n tl gl s c) as [[s1 f]| | |]; cbn; try reflexivity. rewrite app_nil_r. reflexivity.
  - change (c :: h ++ [c']) with ((c :: h) ++ [c']). rewrite run_snoc, IH. destruct (vi_call n tl gl s c) as [[s1 f]| | |]; try reflexivity. cbn [bind].
    rewrite run_snoc. destruct (vi_run n tl gl h s1) as [[s2 fs]| | |]; try reflexivity. cbn [bind]. destruct (vi_call n tl gl s2 c') as [[s3 f3]| | |]; try reflexivity.
    cbn [bind]. rewrite app_assoc. reflexivity.
Qed.
Lemma step_inv s t1 t2 v b s' f : vi_step n tl gl s t1 t2 v b = Ret (s', f) -> n <> 0 /\
  ((vi_iteration s mod n = 0 /\ vi_start s' = t2 /\ vi_total s' = (vi_total s + (t1 - vi_start s))%Z /\ vi_ctime s' = vi_ctime s /\ vi_times s' = vi_times s ++ [vi_total s'] /\
    vi_values s' = vi_values s ++ [v] /\ vi_bounds s' = vi_bounds s ++ [b] /\ vi_iterations s' = vi_iterations s ++ [vi_iteration s] /\
    vi_iteration s' = (match f with Continue => S (vi_iteration s) | _ => vi_iteration s end) /\
    f = (if vi_gap gl v b then GapReached else if match tl with Some l => (l <? vi_total s')%Z | None => false end then Timeout else Continue)) \/
   (vi_iteration s mod n <> 0 /\ f = Continue /\ vi_start s' = vi_start s /\ vi_total s' = vi_total s /\ vi_ctime s' = vi_ctime s /\ vi_times s' = vi_times s /\
    vi_values s' = vi_values s /\ vi_bounds s' = vi_bounds s /\ vi_iterations s' = vi_iterations s /\ vi_iteration s' = S (vi_iteration s))).
Proof.
  unfold vi_step. destruct (n =? 0) eqn:E; [discriminate|]. apply Nat.eqb_neq in E. intros H. split; [exact E|].
  destruct (vi_iteration s mod n =? 0) eqn:M.
  - left. apply Nat.eqb_eq in M. split; [exact M|].
    destruct (vi_gap gl v b); [injection H as <- <-; repeat split|].
    destruct (match tl with Some l => (l <? vi_total s + (t1 - vi_start s))%Z | None => false end) eqn:T; injection H as <- <-; cbn [vi_start vi_total vi_ctime vi_times vi_values vi_bounds vi_iterations vi_iteration]; rewrite T; repeat split.
  - right. apply Nat.eqb_neq in M. injection H as <- <-. repeat split; auto.
Qed.
Lemma log_inv s t1 t2 e x s' : vi_log n s t1 t2 e x = Ret s' ->
  (vi_start s' = t2 \/ vi_start s' = vi_start s) /\ vi_total s' = vi_total s /\ vi_ctime s' = vi_ctime s /\ vi_times s' = vi_times s /\
  vi_values s' = vi_values s /\ vi_bounds s' = vi_bounds s /\ vi_iterations s' = vi_iterations s /\ vi_iteration s' = vi_iteration s.
Proof.
  unfold vi_log. destruct (n =? 0); [discriminate|]. destruct (_ =? 0).
  - intros H. apply bind_inv in H. destruct H as (l & _ & H). injection H as <-. cbn. auto 10.
  - intros H. injection H as <-. auto 10.
Qed.

Lemma removelast_snoc {A} (l : list A) x : removelast (l ++ [x]) = l. Proof. apply removelast_last. Qed.
Lemma last_all fs : Forall (eq Continue) fs -> last fs Continue = Continue.
Proof. intros F. induction F as [|x l <- F IH]; [reflexivity|]. destruct l; [reflexivity|exact IH]. Qed.
Lemma all_removelast fs : Forall (eq Continue) fs -> Forall (eq Continue) (removelast fs).
Proof. intros F. induction F as [|x l <- F IH]; [constructor|]. destruct l; [constructor|]. constructor; auto. Qed.

Lemma rows_inside h s0 s fs : Forall inside h -> vi_iteration s0 = 1 -> vi_run n tl gl h s0 = Ret (s, fs) -> Forall (eq Continue) (removelast fs) ->
  vi_values s = vi_values s0 ++ map (fun jd => d_value (snd jd)) (recorded n h) /\
  vi_bounds s = vi_bounds s0 ++ map (fun jd => d_bound (snd jd)) (recorded n h) /\
  vi_iterations s = vi_iterations s0 ++ map fst (recorded n h) /\
  length (vi_times s) = length (vi_times s0) + length (recorded n h) /\
  vi_ctime s = vi_ctime s0 /\
  vi_iteration s = (match last fs Continue with Continue => S (length (steps h)) | _ => length (steps h) end) /\
  (Forall (fun c => ~ is_log c) h -> vi_total s - vi_start s = vi_total s0 - vi_start s0 - visiting n h)%Z.
Proof.
  revert s fs. induction h as [|c h IH] using rev_ind; intros s fs I E R F.
  - injection R as <- <-. cbn. rewrite !app_nil_r. unfold visiting. cbn. repeat split; auto; lia.
  - apply Forall_app in I. destruct I as [I Ic]. inversion Ic as [|? ? ic _]; subst.
    rewrite run_snoc in R. apply bind_inv in R. destruct R as ([s1 fs1] & R1 & R). apply bind_inv in R. destruct R as ([s2 f] & C & R). injection R as <- <-.
    destruct c as [| t1 t2 v b | | e | t1 t2 e x]; try contradiction; cbn [vi_call] in C.
    + apply bind_inv in C. destruct C as ([s3 f3] & C & K). injection K as <- <-. rewrite removelast_snoc in F. rewrite last_last.
      destruct (IH s1 fs1 I E R1 (all_removelast _ F)) as (V & B & J & L & CT & N & T). rewrite (last_all _ F) in N.
      unfold visiting. rewrite recorded_step. rewrite steps_app, (app_length (steps h)). change (steps [VStep t1 t2 v b]) with [(t1, t2, v, b)]. cbn [length].
      apply step_inv in C. destruct C as (Hn & [(M & S1 & S2 & S3 & S4 & S5 & S6 & S7 & S8 & S9)|(M & S0 & S1 & S2 & S3 & S4 & S5 & S6 & S7 & S8)]).
      * rewrite N in M. rewrite M. cbn [Nat.eqb]. rewrite !map_app, S3, S4, S5, S6, S7, !app_length, V, B, J, L, N, <- !app_assoc. cbn [map length fst snd d_value d_bound].
        repeat split; try reflexivity; try exact CT; try lia.
        { rewrite S8, N. destruct f3; lia. }
        { intros G. apply Forall_app in G. destruct G as [G _]. specialize (T G). rewrite zsum_app. unfold visiting in T. cbn. lia. }
      * rewrite N in M. apply Nat.eqb_neq in M. rewrite M, app_nil_r, S3, S4, S5, S6, S7, S8, S0, S1, S2, N. cbv iota. repeat split; auto; try lia.
        intros G. apply Forall_app in G. destruct G as [G _]. exact (T G).
    + injection C as <- <-. rewrite app_nil_r in *. destruct (IH s1 fs1 I E R1 F) as (V & B & J & L & CT & N & T).
      unfold visiting. rewrite recorded_other by reflexivity. rewrite steps_app. change (steps [VAdd e]) with (@nil vdata). rewrite app_nil_r. cbn [vi_addLog vi_values vi_bounds vi_iterations vi_times vi_ctime vi_iteration vi_total vi_start].
      repeat split; auto. intros G. apply Forall_app in G. destruct G as [G _]. exact (T G).
    + apply bind_inv in C. destruct C as (s3 & C & K). injection K as <- <-. rewrite app_nil_r in *. destruct (IH s1 fs1 I E R1 F) as (V & B & J & L & CT & N & T).
      apply log_inv in C. destruct C as (_ & _ & K3 & K4 & K5 & K6 & K7 & K8).
      rewrite recorded_other by reflexivity. rewrite steps_app. change (steps [VLog t1 t2 e x]) with (@nil vdata). rewrite app_nil_r, K3, K4, K5, K6, K7, K8.
      repeat split; auto. intros G. apply Forall_app in G. destruct G as [_ G]. inversion G as [|? ? g _]; subst. destruct (g Logic.I).
Qed.

Lemma times_inside h s0 s fs t0 : Forall inside h -> clock t0 h -> vi_run n tl gl h s0 = Ret (s, fs) ->
  (vi_start s0 <= t0)%Z -> StronglySorted Z.le (vi_times s0) -> Forall (fun y => (y <= vi_total s0)%Z) (vi_times s0) ->
  (vi_start s <= reading t0 h)%Z /\ StronglySorted Z.le (vi_times s) /\ Forall (fun y => (y <= vi_total s)%Z) (vi_times s) /\
  (vi_total s - vi_start s <= vi_total s0 - vi_start s0)%Z /\ exists l, vi_times s = vi_times s0 ++ l.
Proof.
  revert s0 s fs t0. induction h as [|c h IH]; intros s0 s fs t0 I C R S0 TS TF.
  - injection R as <- <-. cbn. repeat split; auto; try lia. exists []. rewrite app_nil_r. reflexivity.
  - inversion I as [|? ? ic I']; subst. rewrite run_cons in R. apply bind_inv in R. destruct R as ([s1 f] & K & R). apply bind_inv in R. destruct R as ([s2 fs2] & R & E). injection E as <- <-.
    destruct c as [| t1 t2 v b | | e | t1 t2 e x]; try contradiction; cbn [vi_call] in K; cbn [clock reading] in *.
    + apply bind_inv in K. destruct K as ([s3 f3] & K & E). injection E as <- <-. destruct C as [Ct C].
      apply step_inv in K. destruct K as (Hn & [(M & S1 & S2 & S3 & S4 & _)|(M & _ & S1 & S2 & S3 & S4 & _)]).
      * assert (G : Forall (fun y => (y <= vi_total s3)%Z) (vi_times s0)) by (eapply Forall_impl; [|exact TF]; cbn; intros; lia).
        destruct (IH s3 s2 fs2 t2 I' C R) as (A1 & A2 & A3 & A4 & l & A5); [lia|rewrite S4; apply sorted_snoc; auto|rewrite S4; apply Forall_app; split; [exact G|repeat constructor; lia]|].
        repeat split; auto; [lia|]. exists (vi_total s3 :: l). rewrite A5, S4, <- app_assoc. reflexivity.
      * destruct (IH s3 s2 fs2 t2 I' C R) as (A1 & A2 & A3 & A4 & l & A5); [lia|rewrite S4; auto|rewrite S4, S2; auto|]. repeat split; auto; [lia|]. exists l. rewrite A5, S4. reflexivity.
    + injection K as <- <-. exact (IH (vi_addLog s0 e) s2 fs2 t0 I' C R S0 TS TF).
    + apply bind_inv in K. destruct K as (s3 & K & E). injection E as <- <-. destruct C as [Ct C]. 
      apply log_inv in K. destruct K as (S1 & S2 & S3 & S4 & _).
      destruct (IH s3 s2 fs2 t2 I' C R) as (A1 & A2 & A3 & A4 & l & A5); [lia|rewrite S4; auto|rewrite S4, S2; auto|]. repeat split; auto; [lia|]. exists l. rewrite A5, S4. reflexivity.
Qed.

Lemma returns h s : n <> 0 -> Forall (fun c => ~ is_log c) h -> exists s' fs, vi_run n tl gl h s = Ret (s', fs) /\ length fs = length (steps h).
Proof.
  intros Hn. revert s. induction h as [|c h IH]; intros s G; [exists s, []; auto|]. inversion G as [|? ? g G']; subst. rewrite run_cons.
  destruct c as [t1 t2 v b | t1 t2 v b | t v b | e | t1 t2 e x]; cbn [vi_call bind].
  - match goal with |- context [vi_run n tl gl h ?s1] => destruct (IH s1 G') as (s' & fs & R & L) end; rewrite R; exists s', fs; split; [reflexivity|exact L].
  - assert (X : exists s1 f, vi_step n tl gl s t1 t2 v b = Ret (s1, f)).
    { unfold vi_step. destruct (n =? 0) eqn:E; [apply Nat.eqb_eq in E; contradiction|]. destruct (vi_iteration s mod n =? 0); [|eauto]. destruct (vi_gap gl v b); [eauto|].
      destruct tl as [l|]; [destruct (l <? vi_total s + (t1 - vi_start s))%Z|]; eauto. }
    destruct X as (s1 & f & X). rewrite X. cbn [bind]. destruct (IH s1 G') as (s' & fs & R & L). rewrite R. exists s', (f :: fs). split; [reflexivity|]. cbn. f_equal. exact L.
  - match goal with |- context [vi_run n tl gl h ?s1] => destruct (IH s1 G') as (s' & fs & R & L) end; rewrite R; exists s', fs; split; [reflexivity|exact L].
  - match goal with |- context [vi_run n tl gl h ?s1] => destruct (IH s1 G') as (s' & fs & R & L) end; rewrite R; exists s', fs; split; [reflexivity|exact L].
  - destruct (g Logic.I).
Qed.

Lemma gap_spec v b : vi_gap gl v b = true <-> (v - b <= gl /\ b - v <= gl)%Qc.
Proof.
  unfold vi_gap. rewrite Bool.negb_true_iff.
  assert (X : forall a : Qc, Qc_lt gl (if Qc_lt a 0 then - a else a)%Qc = false <-> (- a <= gl /\ a <= gl)%Qc).
  { intros a. destruct (Qc_lt a 0) eqn:E.
    - apply Qc_lt_true in E. split.
      + intros H. apply Qc_lt_false in H. split; [exact H|]. apply Qcle_trans with 0%Qc; [apply Qclt_le_weak; exact E|].
        apply Qcle_trans with (- a)%Qc; [|exact H]. replace 0%Qc with (- 0)%Qc by reflexivity. apply Qcopp_le_compat. apply Qclt_le_weak. exact E.
      + intros [H _]. destruct (Qc_lt gl (- a)) eqn:G; [|reflexivity]. apply Qc_lt_true in G. exfalso. exact (Qclt_not_le _ _ G H).
    - apply Qc_lt_false in E. split.
      + intros H. apply Qc_lt_false in H. split; [|exact H]. apply Qcle_trans with 0%Qc; [|apply Qcle_trans with a; [exact E|exact H]].
        replace 0%Qc with (- 0)%Qc by reflexivity. apply Qcopp_le_compat. exact E.
      + intros [_ H]. destruct (Qc_lt gl a) eqn:G; [|reflexivity]. apply Qc_lt_true in G. exfalso. exact (Qclt_not_le _ _ G H). }
  rewrite X. replace (- (b - v))%Qc with (v - b)%Qc by ring. tauto.
Qed.

Lemma run_app a b s : vi_run n tl gl (a ++ b) s = ' (s1, fs) <- vi_run n tl gl a s ;; ' (s2, gs) <- vi_run n tl gl b s1 ;; Ret (s2, fs ++ gs).
Proof.
  revert s. induction a as [|c a IH]; intros s.
  - cbn [app]. change (vi_run n tl gl [] s) with (Ret (s, @nil vflag)). cbn [bind]. destruct (vi_run n tl gl b s) as [[s2 gs]| | |]; reflexivity.
  - cbn [app]. rewrite !run_cons. destruct (vi_call n tl gl s c) as [[s1 f]| | |]; try reflexivity. cbn [bind]. rewrite IH.
    destruct (vi_run n tl gl a s1) as [[s2 fs]| | |]; try reflexivity. cbn [bind]. destruct (vi_run n tl gl b s2) as [[s3 gs]| | |]; try reflexivity. cbn [bind]. rewrite app_assoc. reflexivity.
Qed.
Lemma adds es s : (forall k, vi_logs s k = []) -> exists s', vi_run n tl gl (map VAdd es) s = Ret (s', []) /\ vi_extra s' = vi_extra s ++ es /\ (forall k, vi_logs s' k = []).
Proof.
  revert s. induction es as [|e es IH]; intros s E; [exists s; rewrite app_nil_r; auto|].
  cbn [map]. rewrite run_cons. cbn [vi_call bind]. destruct (IH (vi_addLog s e)) as (s' & R & X & L); [intros k; cbn; destruct (k =? e); auto|].
  rewrite R. exists s'. split; [reflexivity|]. split; [rewrite X; cbn; rewrite <- app_assoc; reflexivity|exact L].
Qed.
End Runs.

Lemma push_all (es : list nat) : forall (m : nat -> list (option Qc)) e, NoDup es ->
  fold_left (fun m e => fun k => if k =? e then m k ++ [None] else m k) es m e = (if existsb (Nat.eqb e) es then m e ++ [None] else m e).
Proof.
  induction es as [|a es IH]; intros m e D; [reflexivity|]. inversion D as [|? ? D1 D2]; subst. cbn [fold_left existsb]. rewrite IH by exact D2.
  destruct (e =? a) eqn:E; [|reflexivity]. cbn [orb]. apply Nat.eqb_eq in E. subst.
  destruct (existsb (Nat.eqb a) es) eqn:X; [|reflexivity]. apply existsb_exists in X. destruct X as (y & Y & Z). apply Nat.eqb_eq in Z. subst. contradiction.
Qed.
Lemma upd_last {A} (l : list A) x : l <> [] -> upd l (length l - 1) x = removelast l ++ [x].
Proof.
  intros N. destruct (exists_last N) as (l' & a & ->). rewrite removelast_last, app_length. cbn [length]. replace (length l' + 1 - 1) with (length l') by lia.
  clear N. induction l' as [|b l' IH]; [reflexivity|]. cbn. f_equal. exact IH.
Qed.
Definition logf (e : nat) : list (option Qc) -> vcall -> list (option Qc) :=
  fun l c => match c with VStep _ _ _ _ => l ++ [None] | VLog _ _ k x => if k =? e then removelast l ++ [Some x] else l | _ => l end.
Definition logged (es : list nat) (c : vcall) : Prop := match c with VStep _ _ _ _ => True | VLog _ _ k _ => In k es | _ => False end.
Lemma one_step tl gl s t1 t2 v b : NoDup (vi_extra s) -> exists s' f, vi_step 1 tl gl s t1 t2 v b = Ret (s', f) /\ vi_extra s' = vi_extra s /\
  forall e, In e (vi_extra s) -> vi_logs s' e = vi_logs s e ++ [None].
Proof.
  intros D. unfold vi_step. change (1 =? 0) with false. cbv iota. replace (vi_iteration s mod 1) with 0 by (rewrite Nat.mod_1_r; reflexivity). cbn [Nat.eqb]. cbv zeta.
  assert (X : forall e, In e (vi_extra s) -> fold_left (fun m e => fun k => if k =? e then m k ++ [None] else m k) (vi_extra s) (vi_logs s) e = vi_logs s e ++ [None]).
  { intros e I. rewrite push_all by exact D. replace (existsb (Nat.eqb e) (vi_extra s)) with true; [reflexivity|]. symmetry. apply existsb_exists. exists e. split; [exact I|apply Nat.eqb_refl]. }
  destruct (vi_gap gl v b); [|destruct (match tl with Some l => (l <? vi_total s + (t1 - vi_start s))%Z | None => false end)]; eexists; eexists; (split; [reflexivity|]); split; auto.
Qed.
Lemma logs_inside tl gl es h : NoDup es -> forall s, vi_extra s = es -> Forall (logged es) h -> (forall e, In e es -> vi_logs s e <> []) ->
  exists s' fs, vi_run 1 tl gl h s = Ret (s', fs) /\ forall e, In e es -> vi_logs s' e = fold_left (logf e) h (vi_logs s e).
Proof.
  intros D. induction h as [|c h IH]; intros s X F N; [exists s, []; auto|]. inversion F as [|? ? g F']; subst. rewrite run_cons.
  destruct c as [| t1 t2 v b | | | t1 t2 k x]; try contradiction; cbn [vi_call].
  - destruct (one_step tl gl s t1 t2 v b D) as (s1 & f & S1 & S2 & S3). rewrite S1. cbn [bind].
    destruct (IH s1 S2 F') as (s' & fs & R & L); [intros e I; rewrite S3 by exact I; destruct (vi_logs s e); discriminate|].
    rewrite R. eexists; eexists; split; [reflexivity|]. intros e I. rewrite (L e I), (S3 e I). reflexivity.
  - cbn [logged] in g. unfold vi_log. change (1 =? 0) with false. cbv iota. replace (vi_iteration s mod 1) with 0 by (rewrite Nat.mod_1_r; reflexivity). cbn [Nat.eqb].
    assert (Nk := N k g). rewrite wr_Ret by (destruct (vi_logs s k); [contradiction|cbn; lia]). cbn [bind]. rewrite upd_last by exact Nk.
    match goal with |- context [vi_run 1 tl gl h ?s1] => destruct (IH s1 eq_refl F') as (s' & fs & R & L) end.
    { intros e I. cbn. destruct (e =? k); [destruct (removelast (vi_logs s k)); discriminate|auto]. }
    rewrite R. eexists; eexists; split; [reflexivity|]. intros e I. rewrite (L e I). cbn [vi_logs fold_left logf]. rewrite (Nat.eqb_sym k e). destruct (e =? k) eqn:E; [apply Nat.eqb_eq in E; subst; reflexivity|reflexivity].
Qed.
