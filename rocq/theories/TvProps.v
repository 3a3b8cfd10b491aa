From Coq Require Import QArith Qcanon Sorted.
From Verif Require Import Base Values ConstraintModel ConstraintProofs TvModel TvSpec TvProofs.
Open Scope nat_scope.

(** A run without additional logs always returns, with one answer for every step. *)
Theorem C75_returns n tl gl h s : n <> 0 -> Forall (fun c => ~ is_log c) h -> exists s' fs, vi_run n tl gl h s = Ret (s', fs) /\ length fs = length (steps h).
Proof. apply returns. Qed.
Print Assumptions C75_returns.

(** The rows of the protocol of a run: begin, every step whose number the interval divides, and end.  The run may stop at its last step, as an algorithm does when it is told to. *)
Theorem C75_rows n tl gl t0 t1 t2 v b h te ve be s fs : Forall inside h -> vi_run n tl gl (VBegin t1 t2 v b :: h ++ [VEnd te ve be]) (vi_new t0) = Ret (s, fs) ->
  Forall (eq Continue) (removelast fs) ->
  vi_iterations s = 0 :: map fst (recorded n h) ++ [match last fs Continue with Continue => S (length (steps h)) | _ => length (steps h) end] /\
  vi_values s = v :: map (fun jd => d_value (snd jd)) (recorded n h) ++ [ve] /\
  vi_bounds s = b :: map (fun jd => d_bound (snd jd)) (recorded n h) ++ [be] /\
  length (vi_times s) = length (recorded n h) + 2 /\ vi_ctime s = [(t1 - t0)%Z].
Proof.
  intros I R F. rewrite run_cons in R. cbn [vi_call bind] in R. apply bind_inv in R. destruct R as ([s2 f2] & R & E). injection E as -> <-. cbn [app] in *.
  rewrite run_snoc in R. apply bind_inv in R. destruct R as ([s1 fs1] & R & E). cbn [vi_call bind] in E. injection E as <- <-. rewrite app_nil_r in *.
  destruct (rows_inside n tl gl h (vi_begin (vi_new t0) t1 t2 v b) s1 fs1 I eq_refl R F) as (V & B & J & L & CT & N & _). cbn [vi_end vi_iterations vi_values vi_bounds vi_times vi_ctime].
  rewrite J, V, B, CT, N, app_length, L. cbn [vi_begin vi_new vi_iterations vi_values vi_bounds vi_times vi_ctime vi_iteration vi_start app length]. repeat split. lia.
Qed.
Print Assumptions C75_rows.

(** The times of a run start with 0, never decrease, and the last one is at most the time since begin. *)
Theorem C75_times n tl gl t0 t1 t2 v b h te ve be s fs : Forall inside h -> clock t0 (VBegin t1 t2 v b :: h ++ [VEnd te ve be]) ->
  vi_run n tl gl (VBegin t1 t2 v b :: h ++ [VEnd te ve be]) (vi_new t0) = Ret (s, fs) ->
  hd_error (vi_times s) = Some 0%Z /\ StronglySorted Z.le (vi_times s) /\ (last (vi_times s) 0 <= te - t2)%Z.
Proof.
  intros I C R. cbn [clock] in C. destruct C as [Ct C]. apply clock_app in C. destruct C as [C [Ce _]].
  rewrite run_cons in R. cbn [vi_call bind] in R. apply bind_inv in R. destruct R as ([s2 f2] & R & E). injection E as -> <-.
  rewrite run_snoc in R. apply bind_inv in R. destruct R as ([s1 fs1] & R & E). cbn [vi_call bind] in E. injection E as <- <-.
  destruct (times_inside n tl gl h _ s1 fs1 t2 I C R) as (A1 & A2 & A3 & A4 & l & A5); cbn [vi_begin vi_new vi_start vi_times vi_total app] in *; [lia|repeat constructor|repeat constructor; lia|].
  cbn [vi_end vi_times]. rewrite last_last. split; [rewrite A5; reflexivity|]. split; [|lia].
  apply sorted_snoc; [exact A2|]. eapply Forall_impl; [|exact A3]. cbn. intros. lia.
Qed.
Print Assumptions C75_times.

(** Without additional logs the last time is exactly the time since begin without that which recorded steps spend in the visitor. *)
Theorem C75_exact n tl gl t0 t1 t2 v b h te ve be s fs : Forall inside h -> Forall (fun c => ~ is_log c) h ->
  vi_run n tl gl (VBegin t1 t2 v b :: h ++ [VEnd te ve be]) (vi_new t0) = Ret (s, fs) -> Forall (eq Continue) (removelast fs) ->
  last (vi_times s) 0%Z = (te - t2 - visiting n h)%Z.
Proof.
  intros I NL R F. rewrite run_cons in R. cbn [vi_call bind] in R. apply bind_inv in R. destruct R as ([s2 f2] & R & E). injection E as -> <-. cbn [app] in *.
  rewrite run_snoc in R. apply bind_inv in R. destruct R as ([s1 fs1] & R & E). cbn [vi_call bind] in E. injection E as <- <-. rewrite app_nil_r in *.
  destruct (rows_inside n tl gl h (vi_begin (vi_new t0) t1 t2 v b) s1 fs1 I eq_refl R F) as (_ & _ & _ & _ & _ & _ & T). specialize (T NL). cbn [vi_begin vi_new vi_start vi_total] in T.
  cbn [vi_end vi_times]. rewrite last_last. lia.
Qed.
Print Assumptions C75_exact.

(** The answer to a step: to stop only if the step is recorded; because of the gap if value and bound are as close as the limit; else because of the time if the time recorded exceeds the limit. *)
Theorem C75_answer n tl gl t0 t1 t2 v b h u1 u2 w a s fs f : Forall inside h ->
  vi_run n tl gl (VBegin t1 t2 v b :: h ++ [VStep u1 u2 w a]) (vi_new t0) = Ret (s, fs ++ [f]) -> Forall (eq Continue) fs ->
  let number := S (length (steps h)) in
  let close := (w - a <= gl /\ a - w <= gl)%Qc in
  let late := exists l, tl = Some l /\ (l < last (vi_times s) 0)%Z in
  (f = GapReached <-> number mod n = 0 /\ close) /\ (f = Timeout <-> number mod n = 0 /\ ~ close /\ late) /\ (f = Continue <-> number mod n <> 0 \/ (~ close /\ ~ late)).
Proof.
  intros I R F number close late. rewrite run_cons in R. cbn [vi_call bind] in R. apply bind_inv in R. destruct R as ([s2 f2] & R & E). injection E as -> E. cbn [app] in E. subst f2.
  rewrite run_snoc in R. apply bind_inv in R. destruct R as ([s1 fs1] & R & E). cbn [vi_call] in E. apply bind_inv in E. destruct E as ([s3 f3] & E & K).
  apply bind_inv in E. destruct E as ([s4 f4] & E & E'). injection E' as -> <-. injection K as -> K. apply app_inj_tail in K. destruct K as [-> ->].
  destruct (rows_inside n tl gl h (vi_begin (vi_new t0) t1 t2 v b) s1 fs I eq_refl R (all_removelast _ F)) as (_ & _ & _ & _ & _ & N & _). rewrite (last_all _ F) in N. fold number in N.
  apply step_inv in E. destruct E as (Hn & [(M & _ & _ & _ & S4 & _ & _ & _ & _ & S9)|(M & S0 & _)]); rewrite N in M.
  - assert (LT : last (vi_times s) 0%Z = vi_total s) by (rewrite S4; apply last_last). 
    assert (G := gap_spec gl w a). fold close in G. unfold late. rewrite LT. clear LT S4. clearbody close number.
    destruct (vi_gap gl w a).
    + assert (CL : close) by (apply G; reflexivity). subst f. repeat split; try discriminate; try tauto.
    + assert (CL : ~ close) by (intros X; apply G in X; discriminate). clear G.
      assert (T : (match tl with Some l => (l <? vi_total s)%Z | None => false end) = true <-> exists l, tl = Some l /\ (l < vi_total s)%Z).
      { destruct tl as [l|]; [rewrite Z.ltb_lt; split; [intros X; exists l; auto|intros (l' & E & X); injection E as ->; exact X]|split; [discriminate|intros (l' & E & _); discriminate]]. }
      destruct (match tl with Some l => (l <? vi_total s)%Z | None => false end); subst f.
      * assert (LL := proj1 T eq_refl). repeat split; try discriminate; try tauto.
      * assert (LL : ~ exists l, tl = Some l /\ (l < vi_total s)%Z) by (intros X; apply T in X; discriminate). repeat split; try discriminate; try tauto.
  - subst f. clearbody close late number. repeat split; try discriminate; try tauto.
Qed.
Print Assumptions C75_answer.

(** If every step is recorded, each additional log has for every step the value that was logged after it. *)
Theorem C75_logs tl gl es t0 t1 t2 v b u1 u2 w a h : NoDup es -> Forall (fun c => match c with VStep _ _ _ _ => True | VLog _ _ k _ => In k es | _ => False end) h ->
  exists s fs, vi_run 1 tl gl (map VAdd es ++ VBegin t1 t2 v b :: VStep u1 u2 w a :: h) (vi_new t0) = Ret (s, fs) /\
    forall e, In e es -> vi_logs s e = entries e (VStep u1 u2 w a :: h).
Proof.
  intros D F. rewrite run_app. destruct (adds 1 tl gl es (vi_new t0) (fun _ => eq_refl)) as (s0 & R0 & X0 & L0). rewrite R0. cbn [bind]. rewrite run_cons. cbn [vi_call bind].
  set (sb := vi_begin s0 t1 t2 v b). rewrite run_cons. cbn [vi_call].
  assert (Xb : vi_extra sb = es) by exact X0. destruct (one_step tl gl sb u1 u2 w a) as (s1 & f & S1 & S2 & S3); [rewrite Xb; exact D|]. rewrite S1. cbn [bind]. rewrite Xb in S2, S3.
  destruct (logs_inside tl gl es h D s1 S2 F) as (s' & fs & R & L); [intros e I; rewrite S3 by exact I; destruct (vi_logs sb e); discriminate|].
  rewrite R. cbn [bind]. eexists; eexists; split; [reflexivity|]. intros e I. rewrite (L e I), (S3 e I). unfold sb. cbn [vi_begin vi_logs]. rewrite L0. reflexivity.
Qed.
Print Assumptions C75_logs.

(** Examples: a run of three steps, each second one recorded; a run that stops; a run with logs. *)
Definition q (z : nat) : Qc := Qc_of z.
Definition ex_h : list vcall := [VStep 11 12 (q 5) (q 0); VStep 14 16 (q 4) (q 1); VAdd 7; VStep 20 21 (q 3) (q 1)].
Example C75_example : exists s fs, vi_run 2 (Some 100%Z) 0%Qc (VBegin 3 10 (q 9) (q 0) :: ex_h ++ [VEnd 30 (q 3) (q 2)]) (vi_new 1) = Ret (s, fs) /\
  Forall inside ex_h /\ Forall (fun c => ~ is_log c) ex_h /\ clock 1 (VBegin 3 10 (q 9) (q 0) :: ex_h ++ [VEnd 30 (q 3) (q 2)]) /\ fs = [Continue; Continue; Continue] /\
  vi_times s = [0; 4; 18]%Z /\ vi_iterations s = [0; 2; 4] /\ vi_values s = [q 9; q 4; q 3].
Proof.
  eexists; eexists. split; [vm_compute; reflexivity|]. split; [repeat constructor|]. split; [repeat constructor; cbn; tauto|]. split; [cbn; lia|]. repeat split; vm_compute; reflexivity.
Qed.
Example C75_example_stops : exists s, vi_run 1 (Some 5%Z) 0%Qc (VBegin 3 10 (q 9) (q 0) :: [VStep 12 12 (q 5) (q 0)] ++ [VStep 16 18 (q 4) (q 1)]) (vi_new 1) = Ret (s, [Continue] ++ [Timeout]).
Proof. eexists. vm_compute. reflexivity. Qed.
Example C75_example_logs : NoDup [7; 8] /\ entries 7 [VStep 1 1 (q 1) (q 0); VLog 2 2 7 (q 4); VStep 3 3 (q 1) (q 0); VLog 4 4 8 (q 5)] = [Some (q 4); None].
Proof. split; [repeat constructor; cbn; lia|reflexivity]. Qed.

(** Refuted: that a limit of the time stops a run.  For every limit and every time between two steps that is logged before the next step, no time is recorded at all. *)
Theorem C75_limit_refuted limit d : (0 <= limit)%Z -> (0 <= d)%Z ->
  let h := [VStep 0 0 (q 1) (q 0); VLog d d 7 (q 1); VStep d d (q 1) (q 0)] in
  clock 0 (VBegin 0 0 (q 1) (q 0) :: h ++ [VEnd d (q 1) (q 0)]) /\
  exists s, vi_run 1 (Some limit) 0%Qc (VAdd 7 :: VBegin 0 0 (q 1) (q 0) :: h ++ [VEnd d (q 1) (q 0)]) (vi_new 0) = Ret (s, [Continue; Continue]) /\ vi_times s = [0; 0; 0; 0]%Z.
Proof.
  intros H D h. split; [cbn; lia|]. unfold h. cbn [app].
  assert (G : vi_gap 0%Qc (q 1) (q 0) = false) by (vm_compute; reflexivity).
  assert (L : (limit <? 0)%Z = false) by (apply Z.ltb_ge; lia).
  unfold vi_run. repeat (progress (cbn -[vi_gap Z.ltb Z.sub Z.add q]; change (Q2Qc 0) with 0%Qc; rewrite ?G, ?Z.sub_diag, ?Z.add_0_l, ?L)).
  eexists. split; [reflexivity|]. cbn -[Z.sub Z.add]. rewrite ?Z.sub_diag. reflexivity.
Qed.
Print Assumptions C75_limit_refuted.

(** Refuted: C75_logs where not every step is recorded.  What is logged after the recorded step 2 is dropped, and what is logged after step 3 replaces its entry; before the first recorded step it is undefined. *)
Theorem C75_logs_refuted :
  (exists s fs, vi_run 2 None 0%Qc [VAdd 7; VBegin 0 0 (q 1) (q 0); VStep 1 1 (q 1) (q 0); VStep 2 2 (q 1) (q 0); VLog 2 2 7 (q 20); VStep 3 3 (q 1) (q 0); VLog 3 3 7 (q 30)] (vi_new 0) = Ret (s, fs) /\
    vi_logs s 7 = [Some (q 30)] /\ vi_iterations s = [0; 2]) /\
  vi_run 2 None 0%Qc [VAdd 7; VBegin 0 0 (q 1) (q 0); VStep 1 1 (q 1) (q 0); VLog 2 2 7 (q 10)] (vi_new 0) = Undef.
Proof. split; [eexists; eexists; split; [vm_compute; reflexivity|split; vm_compute; reflexivity]|vm_compute; reflexivity]. Qed.
Print Assumptions C75_logs_refuted.

(** Refuted: that end may be called twice without counting time twice; and an interval of 0 is undefined. *)
Theorem C75_end_refuted : exists s fs, vi_run 1 None 0%Qc [VBegin 0 0 (q 1) (q 0); VEnd 10 (q 1) (q 0); VEnd 10 (q 1) (q 0)] (vi_new 0) = Ret (s, fs) /\ vi_times s = [0; 10; 20]%Z.
Proof. eexists; eexists; split; [vm_compute; reflexivity|vm_compute; reflexivity]. Qed.
Print Assumptions C75_end_refuted.
Theorem C75_interval_refuted tl gl s t1 t2 v b : vi_run 0 tl gl [VStep t1 t2 v b] s = Undef.
Proof. reflexivity. Qed.
Print Assumptions C75_interval_refuted.
