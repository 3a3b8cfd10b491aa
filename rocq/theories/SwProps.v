(** Swendsen-Wang sampling: the properties.  [prob] converts a value to a probability. *)
From Coq Require Import ZArith QArith Qcanon Relations.
From Verif Require Import Base Values GmView GmViewSpec GmViewProofs ShapeSpec MovemakerModel MovemakerSpec MovemakerProofs IcmModel IcmProofs PartitionModel ConstraintModel HoeProofs DualDecompModel FmProps GibbsModel GibbsSpec GibbsProofs GgSpec GgProofs SwModel SwSpec SwEdge SwShare SwProofs.
Open Scope nat_scope.

Section Props.
Variable T : Type.
Variable OP : oper T.
Variable mult : bool.
Variable ACC : accum T.
Variable fin : T -> Prop.
Hypothesis OL : op_laws fin OP.
Hypothesis AL : acc_laws fin OP ACC.
Variable prob : T -> Qc.
Hypothesis PN : forall t, (0 <= prob t)%Qc.
Variable g : gmv T.
Hypothesis W : wf_gmv g.
Hypothesis FG : fin_gmv fin g.
Hypothesis NV : v_labels g <> [].
Variable par : swpar.
Hypothesis SO : swstart_ok g par.
Notation run := (sw_run T OP mult ACC prob g par).
Notation new := (sw_new T OP prob g par).
Notation infer := (sw_infer T OP mult ACC prob g par).
Notation n := (length (v_labels g)).
Notation ok := (swok T OP prob g par).
Lemma nv : 0 < n.
Proof. destruct (v_labels g); [contradiction|cbn; lia]. Qed.

Lemma sp_cases : (sp_start par = [] /\ (length (sp_start par) =? n) = false /\ start_state g par = repeat 0 n) \/ (labeling g (sp_start par) /\ (length (sp_start par) =? n) = true /\ start_state g par = sp_start par).
Proof.
  destruct SO as [E|L].
  - left. rewrite E. split; auto. split; [|unfold start_state; rewrite E; auto]. apply Nat.eqb_neq. cbn. pose proof nv. lia.
  - right. pose proof (labeling_length _ g _ L) as LL. split; auto. split; [apply Nat.eqb_eq; auto|]. unfold start_state. destruct (sp_start par); auto. cbn in LL. pose proof nv. lia.
Qed.
Lemma start_labeling : labeling g (start_state g par).
Proof. destruct sp_cases as [(_ & _ & ->)|(L & _ & ->)]; auto. apply zero_labeling; auto. Qed.
Lemma new_ok : (new = Throw /\ failing T OP prob g par) \/ exists s, new = Ret s /\ ok s /\ mm_state (sw_mm s) = start_state g par /\ sw_best s = repeat 0 n /\ sw_value s = total OP g (start_state g par).
Proof.
  assert (M : exists m, (if length (sp_start par) =? n then mm_new_at T OP g (sp_start par) else mm_new T OP g) = Ret m /\ mm_ok T OP g m /\ mm_state m = start_state g par).
  { destruct sp_cases as [(_ & -> & ->)|(L & -> & ->)]; [apply mm_new_ok; auto|apply mm_new_at_ok; auto]. }
  destruct M as (m & EM & MO & ES). unfold sw_new. rewrite EM. cbn [bind].
  replace (negb (length (sp_start par) =? 0) && negb (length (sp_start par) =? n)) with false by (destruct sp_cases as [(-> & _)|(_ & -> & _)]; [auto|rewrite andb_false_r; auto]).
  destruct (variableAdjacencyList_ok T g W (fun _ => true)) as (adj & EA & AO). rewrite EA. cbn [bind]. destruct (zero_start T OP prob g par adj AO) as [S0 Z0] || destruct (zero_start T g adj AO) as [S0 Z0].
  destruct (edges_ok T OP fin OL prob PN g W FG par adj AO _ S0 Z0) as [[E X]|(ep & E & EO)].
  - left. rewrite E. auto.
  - right. rewrite E. cbn [bind]. eexists. split; [reflexivity|]. split; [split; [exact MO|]; split; [exact AO|]; split; [exact EO|apply zero_labeling; auto]|]. split; auto. split; auto. cbn [sw_value]. destruct MO as (_ & _ & _ & E'). unfold mm_value. rewrite E', ES. auto.
Qed.
Lemma reset_ok : forall s, ok s -> exists s', sw_reset T OP prob g par s = Ret s' /\ ok s' /\ mm_state (sw_mm s') = start_state g par /\ sw_best s' = start_state g par /\ sw_value s' = total OP g (start_state g par).
Proof.
  intros s (MO & AO & EO & LB). unfold sw_reset. assert (M : exists m, (if length (sp_start par) =? n then m <- mm_initialize T OP g (sw_mm s) (sp_start par) ;; Ret (m, sp_start par) else if negb (length (sp_start par) =? 0) then Throw
      else m <- mm_reset T OP g (sw_mm s) ;; Ret (m, repeat 0 (length (sw_best s)))) = Ret (m, start_state g par) /\ mm_ok T OP g m /\ mm_state m = start_state g par).
  { destruct sp_cases as [(E0 & -> & ->)|(L & -> & ->)].
    - rewrite E0. cbn [length Nat.eqb negb]. destruct (mm_reset_ok T OP g W (sw_mm s) MO) as (m & E & M1 & M2). rewrite E. cbn [bind]. exists m. rewrite (labeling_length _ g _ LB). auto.
    - destruct (mm_initialize_ok T OP g W (sw_mm s) _ MO L) as (m & E & M1 & M2). rewrite E. cbn [bind]. exists m. auto. }
  destruct M as (m & EM & MO' & ES). rewrite EM. cbn [bind]. pose proof EO as (S0 & Z0 & _). destruct (edges_ok T OP fin OL prob PN g W FG par _ AO _ S0 Z0) as [[E X]|(ep & E & EO')].
  - exfalso. apply (ep_not_failing T OP prob g par _ AO _ EO X).
  - rewrite E. cbn [bind]. eexists. split; [reflexivity|]. split; [split; [exact MO'|]; split; [exact AO|]; split; [exact EO'|apply start_labeling]|]. split; auto. split; auto. cbn [sw_value]. destruct MO' as (_ & _ & _ & E'). unfold mm_value. rewrite E', ES. auto.
Qed.
Notation iter := (iteration OP ACC prob g par).
Notation chains := (chain OP ACC prob g par).
Lemma chain_snoc : forall dr it s calls s1 call s2, chains dr it s calls s1 -> iter dr (it + length calls) s1 call s2 -> chains dr it s (calls ++ [call]) s2.
Proof.
  intros dr it s calls s1 call s2 C. revert call s2. induction C as [it s|it s c s1' calls s2' I C IH]; intros call s2 H; cbn [app length] in *.
  - rewrite Nat.add_0_r in H. econstructor; [exact H|constructor].
  - econstructor; [exact I|]. apply IH. rewrite Nat.add_succ_r in H. exact H.
Qed.
Lemma infer_ok : forall dr s, draws_ok dr -> ok s -> exists s' calls, infer dr s = Ret (s', calls) /\ ok s' /\ length calls = sp_burn par + sp_steps par /\ chains dr 0 s calls s' /\ Forall (labeling g) (map sc_state calls).
Proof.
  intros dr s DR O. unfold sw_infer.
  match goal with |- context [foldM ?f (seq 0 ?m) ?z] => destruct (DmcProofs.foldM_upto _ f (fun k st => exists s' p' calls, st = (s', p', repeat false n, calls) /\ ok s' /\ length calls = k /\ chains dr 0 s calls s' /\ Forall (labeling g) (map sc_state calls)) m z) as (st & E & s' & p' & calls & -> & O' & L & C & F) end.
  - exists s, (part_init n), []. split; auto. split; auto. split; auto. split; [constructor|constructor].
  - intros k st Hk (s1 & p1 & calls & -> & O1 & L1 & C1 & F1). cbv beta. cbn [fst snd].
    destruct (step_ok T OP mult ACC fin OL prob PN g W FG nv par dr DR s1 O1 k p1) as (s2 & p2 & call & E & O2 & rep & Cl & t & H1 & H2 & H3 & H4 & H5 & H6). rewrite E. cbn [bind]. eexists. split; [reflexivity|]. exists s2, p2, (calls ++ [call]). split; auto. split; auto.
    split; [rewrite app_length; cbn; lia|]. split; [|rewrite map_app, Forall_app; split; auto; constructor; [|constructor]; destruct H6 as (_ & _ & _ & _ & _ & -> & _); apply O2]. eapply chain_snoc; eauto. rewrite L1. cbn [Nat.add]. exists rep, Cl, t. tauto.
  - rewrite E. cbn [bind]. exists s', calls. auto.
Qed.
(** The best state *)
Definition tracked (s : sw T) (calls : list swcall) : Prop := sw_value s = total OP g (sw_best s) /\ Forall (labeling g) (accepted_states calls) /\ best_among OP ACC g (sw_best s) (start_state g par :: accepted_states calls).
Lemma accepted_app : forall a b, accepted_states (a ++ b) = accepted_states a ++ accepted_states b.
Proof. intros. unfold accepted_states. rewrite filter_app, map_app. auto. Qed.
Lemma tracked_step : forall dr it s call s' calls, tracked s calls -> labeling g (sc_state call) -> iter dr it s call s' -> tracked s' (calls ++ [call]).
Proof.
  intros dr it s call s' calls (V & F & IN & B) LC (rep & C & t & _ & _ & _ & _ & _ & _ & _ & _ & ES & EC & _ & _ & EB).
  assert (TF : forall y, labeling g y -> fin (total OP g y)) by (apply (tot_fin T OP fin OL g FG)).
  assert (LA : forall y, In y (start_state g par :: accepted_states calls) -> labeling g y). { intros y [<-|Hy]; [apply start_labeling|]. rewrite Forall_forall in F. auto. }
  assert (LB : labeling g (sw_best s)) by auto.
  unfold tracked. rewrite accepted_app. unfold accepted_states at 2 4. cbn [filter]. destruct (sc_accepted call && negb (sc_burning call)) eqn:A; cbn [map andb] in *.
  - apply andb_prop in A. destruct A as [A _]. rewrite A in ES. rewrite <- ES, <- EC in EB. split; [|split].
    + destruct (a_bop ACC _ _); injection EB as -> ->; auto.
    + rewrite Forall_app. auto.
    + rewrite V in EB. rewrite app_comm_cons. destruct (a_bop ACC (total OP g (sc_state call)) (total OP g (sw_best s))) eqn:BB; injection EB as -> _.
      * split; [apply in_or_app; right; left; auto|]. intros y Hy. apply in_app_or in Hy. destruct Hy as [Hy|[<-|[]]]; [|apply (al_irrefl _ _ _ AL); auto].
        destruct (a_bop ACC (total OP g y) (total OP g (sc_state call))) eqn:X; auto. rewrite <- (B y Hy). symmetry. apply (al_trans _ _ _ AL) with (total OP g (sc_state call)); auto.
      * split; [apply in_or_app; left; auto|]. intros y Hy. apply in_app_or in Hy. destruct Hy as [Hy|[<-|[]]]; auto.
  - injection EB as -> ->. rewrite app_nil_r. split; auto. split; auto. split; auto.
Qed.
Lemma tracked_chain : forall dr it s calls s', chains dr it s calls s' -> forall pre, tracked s pre -> Forall (labeling g) (map sc_state calls) -> tracked s' (pre ++ calls).
Proof.
  intros dr it s calls s' C. induction C as [it s|it s c s1 calls s2 I C IH]; intros pre TR F; cbn [map] in *. { rewrite app_nil_r. auto. }
  apply Forall_cons_iff in F. destruct F as [F1 F]. replace (pre ++ c :: calls) with ((pre ++ [c]) ++ calls) by (rewrite <- app_assoc; auto). apply IH; auto. eapply tracked_step; eauto.
Qed.
Definition legal (o : swop) : Prop := match o with SReset => True | SInfer dr => draws_ok dr end.
Definition begun (h : list swop) : Prop := sp_start par = [] \/ In SReset h.
Lemma do_ok : forall c o, ok (fst c) -> legal o -> exists c', sw_do T OP mult ACC prob g par c o = Ret c' /\ ok (fst c') /\ (tracked (fst c) (snd c) \/ o = SReset -> tracked (fst c') (snd c')).
Proof.
  intros [s calls] o O L. cbn [fst snd] in *. destruct o as [|dr]; cbn [sw_do fst snd].
  - destruct (reset_ok s O) as (s' & E & O' & A & B & C). rewrite E. cbn [bind]. eexists. split; [reflexivity|]. split; auto. intros _. cbn [fst snd]. split; [rewrite C, B; auto|]. split; [constructor|]. rewrite B. split; [left; auto|]. intros y [<-|[]]. apply (al_irrefl _ _ _ AL). apply (tot_fin T OP fin OL g FG). apply start_labeling.
  - destruct (infer_ok dr s L O) as (s' & calls' & E & O' & LN & C & F). rewrite E. cbn [bind]. eexists. split; [reflexivity|]. split; auto. cbn [fst snd]. intros [H|H]; [|discriminate]. eapply tracked_chain; eauto.
Qed.
Lemma run_ok : forall h s0, new = Ret s0 -> Forall legal h -> exists s calls, run h = Ret (s, calls) /\ ok s /\ (begun h -> tracked s calls).
Proof.
  intros h s0 N F. unfold sw_run. rewrite N. cbn [bind]. destruct new_ok as [[X _]|(s1 & E1 & O1 & S1 & B1 & V1)]; [congruence|]. rewrite N in E1. injection E1 as <-.
  assert (G : forall h c, Forall legal h -> ok (fst c) -> exists c', foldM (sw_do T OP mult ACC prob g par) h c = Ret c' /\ ok (fst c') /\ (tracked (fst c) (snd c) \/ In SReset h -> tracked (fst c') (snd c'))).
  { clear h F. induction h as [|o h IH]; intros c F O; cbn [foldM]. { exists c. split; auto. split; auto. intros [H|[]]; auto. }
    apply Forall_cons_iff in F. destruct F as [L F]. destruct (do_ok c o O L) as (c1 & E & O1' & T1). rewrite E. cbn [bind]. destruct (IH c1 F O1') as (c2 & E2 & O2 & T2). exists c2. split; auto. split; auto.
    intros [H|[H|H]]; auto. }
  destruct (G h (s0, []) F O1) as ([s calls] & E & O & TR). exists s, calls. split; auto. split; auto. intros [B|B]; apply TR; auto. left. cbn [fst snd].
  assert (ES : start_state g par = repeat 0 n) by (unfold start_state; rewrite B; auto). rewrite ES in V1. split; [rewrite V1, B1; auto|]. split; [constructor|]. rewrite B1, ES. split; [left; auto|]. intros y [<-|[]]. apply (al_irrefl _ _ _ AL). apply (tot_fin T OP fin OL g FG). apply zero_labeling; auto.
Qed.

(** Making the object throws if, for two variables that share a factor and have the same number of labels, the local probabilities sum up to zero or one of them is
    less than the allowed minimum, and otherwise succeeds. *)
Definition refused : Prop := exists u v, touching g u v /\ u < n /\ v < n /\ nth u (v_labels g) 0 = nth v (v_labels g) 0 /\ too_unlikely OP prob g par u v.
Theorem C70_new : (exists s, new = Ret s /\ mm_state (sw_mm s) = start_state g par /\ ~ refused) \/ (new = Throw /\ refused).
Proof.
  destruct new_ok as [[E (u & v & Hu & Hv & (k & fc & NE & I1 & I2) & D & EQ & ET)]|(s & E & O & S & _)]; [right|left].
  - split; auto. exists u, v. split; [split; auto; exists fc; split; auto; eapply nth_error_In; eauto|]. split; auto. split; auto. split; auto. apply edge_throw; auto.
  - exists s. split; auto. split; auto. intros (u & v & (D & fc & IF & I1 & I2) & Hu & Hv & EQ & TU). destruct O as (_ & AO & EO & _). apply (ep_not_failing T OP prob g par _ AO _ EO). destruct (In_nth_error _ _ IF) as (k & NE). exists u, v. split; auto. split; auto. split; [exists k, fc; auto|]. split; auto. split; auto. apply edge_throw; auto.
Qed.
(** If it was made, then after any calls the state of the chain and arg() are labelings, the value of the chain is that of its state, and sampling ends, with a call of
    the visitor in each iteration. *)
Theorem C70_valid : forall h s0, new = Ret s0 -> Forall legal h -> exists s calls, run h = Ret (s, calls) /\ labeling g (mm_state (sw_mm s)) /\ mm_value (sw_mm s) = total OP g (mm_state (sw_mm s)) /\ labeling g (sw_arg s) /\
  forall dr, draws_ok dr -> exists s' calls', infer dr s = Ret (s', calls') /\ length calls' = sp_burn par + sp_steps par /\ Forall (labeling g) (map sc_state calls').
Proof.
  intros h s0 N F. destruct (run_ok h s0 N F) as (s & calls & E & O & _). pose proof O as ((_ & L & _ & EV) & _ & _ & LB). exists s, calls. split; auto. split; auto. split; auto. split; auto.
  intros dr DR. destruct (infer_ok dr s DR O) as (s' & calls' & E' & _ & LN & _ & F'). eauto.
Qed.
(** The iterations of infer() *)
Theorem C70_chain : forall h s0 s calls dr s' calls', new = Ret s0 -> Forall legal h -> run h = Ret (s, calls) -> draws_ok dr -> infer dr s = Ret (s', calls') -> chains dr 0 s calls' s'.
Proof.
  intros h s0 s calls dr s' calls' N F R DR I. destruct (run_ok h s0 N F) as (s1 & calls1 & E & O & _). rewrite R in E. injection E as <- <-. destruct (infer_ok dr s DR O) as (s2 & calls2 & E' & _ & _ & C & _). rewrite I in E'. injection E' as <- <-. auto.
Qed.
(** Linked variables have the same label and the same number of labels. *)
Theorem C70_linked : forall h s0 s calls dr it u v, new = Ret s0 -> Forall legal h -> run h = Ret (s, calls) -> draws_ok dr -> linked s dr it u v ->
  nth u (mm_state (sw_mm s)) 0 = nth v (mm_state (sw_mm s)) 0 /\ nth u (v_labels g) 0 = nth v (v_labels g) 0.
Proof.
  intros h s0 s calls dr it u v N F R DR. destruct (run_ok h s0 N F) as (s1 & calls1 & E & O & _). rewrite R in E. injection E as <- <-. apply (linked_same T OP fin OL prob PN g W FG par dr DR s O).
Qed.
(** Without an initial state, or after reset(), the best value is the value of arg(), and arg() is the best of the initial state and the states accepted after burn-in. *)
Theorem C70_best : forall h s0, new = Ret s0 -> Forall legal h -> begun h -> exists s calls, run h = Ret (s, calls) /\ sw_value s = total OP g (sw_arg s) /\ best_among OP ACC g (sw_arg s) (start_state g par :: accepted_states calls).
Proof. intros h s0 N F B. destruct (run_ok h s0 N F) as (s & calls & E & _ & TR). destruct (TR B) as (A & _ & C). exists s, calls. auto. Qed.
(** The adjacency is that of the model, the probability of an edge is the same at both ends, zero if the variables have different numbers of labels, and otherwise
    between the allowed minimum and one minus it. *)
Theorem C70_edges : forall h s0 s calls, new = Ret s0 -> Forall legal h -> run h = Ret (s, calls) ->
  (forall u v, (exists j q, edge_at s u j v q) <-> touching g u v /\ u < n) /\
  forall u j v q, edge_at s u j v q -> (0 <= q)%Qc /\ (q <= 1)%Qc /\ (nth u (v_labels g) 0 <> nth v (v_labels g) 0 -> q = 0%Qc) /\ (nth u (v_labels g) 0 = nth v (v_labels g) 0 -> (sp_lowest par <= q)%Qc /\ (sp_lowest par <= 1 - q)%Qc) /\
  forall j' q', edge_at s v j' u q' -> q' = q.
Proof.
  intros h s0 s calls N F R. destruct (run_ok h s0 N F) as (s1 & calls1 & E & O & _). rewrite R in E. injection E as <- <-. pose proof O as (_ & AO & EO & _).
  assert (EA : forall u j v q, edge_at s u j v q -> u < n /\ j < length (nth u (sw_adj s) []) /\ at_adj (sw_adj s) u j = v /\ at_ep (sw_ep s) u j = q).
  { intros u j v q [A B]. assert (Hu : u < n). { destruct (Nat.lt_ge_cases u n) as [Y|Y]; auto. rewrite nth_overflow in A by (rewrite (proj1 AO); auto). destruct j; discriminate. }
    split; auto. split; [apply nth_error_Some; congruence|]. unfold at_adj, at_ep. split; apply nth_error_nth; auto. }
  split.
  - intros u v. split.
    + intros (j & q & H). destruct (EA _ _ _ _ H) as (Hu & Hj & <- & <-). destruct (adj_lt_n T g W _ AO u j Hu Hj) as (_ & (k & fc & NE & I1 & I2) & D). split; auto. split; auto. exists fc. split; auto. eapply nth_error_In; eauto.
    + intros ((D & fc & IF & I1 & I2) & Hu). destruct (In_nth_error _ _ IF) as (k & NE). assert (H : near T s u v). { apply (proj2 (near_iff T OP prob g W nv par s O u Hu u v)). split; auto. split; auto. exists k, fc. auto. }
      apply In_nth_error in H. destruct H as (j & H). exists j, (at_ep (sw_ep s) u j). split; auto. apply nth_error_nth'. destruct EO as ((_ & ->) & _); auto. apply nth_error_Some. congruence.
  - intros u j v q H. destruct (EA _ _ _ _ H) as (Hu & Hj & <- & <-). destruct (ep_facts T OP fin OL prob PN g W FG par _ AO _ EO u j Hu Hj) as (A & B & C & D & E). split; auto. split; auto. split; auto. split; auto. intros j' q' H'. destruct (EA _ _ _ _ H') as (_ & Hj' & E1 & <-). auto.
Qed.
(** The probability of an edge between variables with the same number of labels is the share of the labelings with different labels of the two variables, by the factors
    of the two variables. *)
Theorem C70_share : forall h s0 s calls, new = Ret s0 -> Forall legal h -> run h = Ret (s, calls) -> forall u j v q, edge_at s u j v q -> nth u (v_labels g) 0 = nth v (v_labels g) 0 ->
  (exists L, local_labelings g u v L) /\ forall L, local_labelings g u v L -> (q = local_weight OP prob g u v L (other_label u v) / local_weight OP prob g u v L any_label)%Qc /\ local_weight OP prob g u v L any_label <> 0%Qc.
Proof.
  intros h s0 s calls N F R u j v q [A B] EQ. destruct (run_ok h s0 N F) as (s1 & calls1 & E & O & _). rewrite R in E. injection E as <- <-. destruct O as (_ & AO & EO & _).
  assert (Hu : u < n). { destruct (Nat.lt_ge_cases u n) as [Y|Y]; auto. rewrite nth_overflow in A by (rewrite (proj1 AO); auto). destruct j; discriminate. }
  assert (Hj : j < length (nth u (sw_adj s) [])) by (apply nth_error_Some; congruence). assert (EV : at_adj (sw_adj s) u j = v) by (unfold at_adj; apply nth_error_nth; auto). assert (EQ' : at_ep (sw_ep s) u j = q) by (unfold at_ep; apply nth_error_nth; auto).
  destruct (adj_lt_n T g W _ AO u j Hu Hj) as (Hv & _ & _). destruct EO as (_ & _ & EO). specialize (EO u j Hu Hj). unfold entry_ok in EO. rewrite EV in *. rewrite EQ' in EO. specialize (EO EQ). split; [apply enumerable; auto|].
  intros L LL. rewrite (edge_value T OP prob g W par u v L) in EO by auto. cbv zeta in EO. destruct (Qc_eq_dec _ _); [discriminate|]. destruct (_ || _); [discriminate|]. injection EO as <-. auto.
Qed.

(** ** Detailed balance *)
Lemma cut_recolour : forall (s : sw T) x C t l, cut s (recolour x C t) C l = cut s x C l.
Proof.
  intros s x C t l. unfold cut, recolour. rewrite relabel_length. f_equal. apply map_ext. intros w. destruct (member w C) eqn:M; auto. rewrite relabel_off; auto. intros X. apply member_In in X. congruence.
Qed.
Lemma recolour_back : forall x C a t, NoDup C -> Forall (fun v => v < length x) C -> (forall v, In v C -> nth v x 0 = a) -> recolour (recolour x C t) C a = x.
Proof.
  intros x C a t ND F E. unfold recolour. rewrite relabel_relabel by (auto; apply repeat_length). rewrite <- (relabel_self C x F) at 2. f_equal. unfold at_vars. clear - E. induction C as [|v C IH]; auto. cbn. rewrite (E v) by (left; auto). f_equal. apply IH. intros; apply E; right; auto.
Qed.
Lemma mul_pos : forall a b : Qc, (0 < a)%Qc -> (0 < b)%Qc -> (0 < a * b)%Qc.
Proof. intros a b A B. rewrite <- (Qcmult_0_l b). apply Qcmult_lt_compat_r; auto. Qed.
Lemma qprod_pos : forall l, (forall q, In q l -> (0 < q)%Qc) -> (0 < qprod l)%Qc.
Proof. induction l as [|a l IH]; intros H; [exact eq_refl|]. rewrite qprod_cons. apply mul_pos; [apply H; left; auto|apply IH; intros; apply H; right; auto]. Qed.
Lemma min1_flow : forall A B : Qc, (0 < A)%Qc -> (0 < B)%Qc -> (A * min1 (B / A) = B * min1 (A / B))%Qc.
Proof.
  assert (NZ : forall a : Qc, (0 < a)%Qc -> a <> 0%Qc) by (intros a H ->; exact (Qclt_not_eq _ _ H eq_refl)).
  assert (G : forall A B : Qc, (0 < A)%Qc -> (0 < B)%Qc -> (B <= A)%Qc -> (A * min1 (B / A) = B)%Qc).
  { intros A B PA PB LE. unfold min1. destruct (Qclt_le_dec (B / A) 1) as [H|H].
    - field. auto.
    - assert (X : (1 * A <= B / A * A)%Qc) by (apply Qcmult_le_compat_r; auto; apply Qclt_le_weak; auto). replace (B / A * A)%Qc with B in X by (field; auto). rewrite Qcmult_1_l in X. rewrite Qcmult_1_r. apply Qcle_antisym; auto. }
  assert (G' : forall A B : Qc, (0 < A)%Qc -> (0 < B)%Qc -> (B <= A)%Qc -> (B * min1 (A / B) = B)%Qc).
  { intros A B PA PB LE. unfold min1. destruct (Qclt_le_dec (A / B) 1) as [H|H]; [|ring]. exfalso. assert (X : (A / B * B < 1 * B)%Qc) by (apply Qcmult_lt_compat_r; auto). replace (A / B * B)%Qc with A in X by (field; auto). rewrite Qcmult_1_l in X. exact (Qclt_not_le _ _ X LE). }
  intros A B PA PB. destruct (Qclt_le_dec A B) as [H|H].
  - apply Qclt_le_weak in H. rewrite (G B A), (G' B A); auto.
  - rewrite (G A B), (G' A B); auto.
Qed.
(** Detailed balance: take a set of variables that have one label in a labeling, and another label.  The probability of the labeling, times the probability that
    no edge to a variable with the same label outside the set is turned on, times the probability to accept the move of the set to the other label, is the same for
    the labeling after the move and the move back.  (Edges within the set are turned on with the same probabilities before and after.) *)
Theorem C70_balance : (forall t, (0 < prob t)%Qc) -> (0 < sp_lowest par)%Qc -> forall h s0 s calls, new = Ret s0 -> Forall legal h -> run h = Ret (s, calls) ->
  forall x C a t, labeling g x -> NoDup C -> Forall (fun v => v < n) C -> (forall v, In v C -> nth v x 0 = a) -> a <> t ->
  let x' := recolour x C t in
  (prob (total OP g x) * cut s x C a * min1 (mh_ratio OP prob g s x C a t) = prob (total OP g x') * cut s x' C t * min1 (mh_ratio OP prob g s x' C t a))%Qc /\
  (mh_ratio OP prob g s x C a t * mh_ratio OP prob g s x' C t a = 1)%Qc.
Proof.
  intros PP LP h s0 s calls N F R x C a t LX ND FC EA NE x'. destruct (run_ok h s0 N F) as (s1 & calls1 & E & O & _). rewrite R in E. injection E as <- <-. pose proof O as (_ & AO & EO & _). pose proof (labeling_length _ g x LX) as LL.
  assert (CP : forall l, (0 < cut s x C l)%Qc).
  { intros l. unfold cut. apply qprod_pos. intros q Hq. apply in_map_iff in Hq. destruct Hq as (w & <- & Hw). apply in_seq in Hw. assert (HW : w < n) by lia. destruct (_ && _); [|exact eq_refl]. apply qprod_pos. intros q Hq. apply in_map_iff in Hq. destruct Hq as ([v e] & <- & Hv). cbn [fst snd]. destruct (member v C); [|exact eq_refl].
    destruct (In_nth _ _ (0, 0%Qc) Hv) as (j & Hj & EJ). rewrite combine_length in Hj. assert (LR : length (nth w (sw_ep s) []) = length (nth w (sw_adj s) [])) by (apply EO; auto). rewrite combine_nth in EJ by auto. injection EJ as EV EE.
    destruct (ep_facts T OP fin OL prob PN g W FG par _ AO _ EO w j HW) as (A1 & A2 & A3 & A4 & _); [lia|]. change (nth j (nth w (sw_ep s) []) 0%Qc) with (at_ep (sw_ep s) w j) in EE. rewrite EE in *.
    destruct (Nat.eq_dec (nth w (v_labels g) 0) (nth (at_adj (sw_adj s) w j) (v_labels g) 0)) as [Q|Q]; [destruct (A4 Q) as [_ A5]; eapply Qclt_le_trans; eauto|rewrite (A3 Q); exact eq_refl]. }
  set (P := prob (total OP g x)). set (P' := prob (total OP g x')). assert (XB : recolour x' C a = x) by (apply recolour_back; auto; rewrite LL; auto).
  assert (NZ : forall q : Qc, (0 < q)%Qc -> q <> 0%Qc) by (intros q H ->; exact (Qclt_not_eq _ _ H eq_refl)). assert (PP1 : (0 < P)%Qc) by apply PP. assert (PP2 : (0 < P')%Qc) by apply PP.
  assert (R1 : mh_ratio OP prob g s x C a t = ((P' * cut s x C t) / (P * cut s x C a))%Qc). { unfold mh_ratio. replace (t =? a) with false by (symmetry; apply Nat.eqb_neq; auto). fold x' P P'. field. split; apply NZ; auto. }
  assert (R2 : mh_ratio OP prob g s x' C t a = ((P * cut s x C a) / (P' * cut s x C t))%Qc). { unfold mh_ratio. replace (a =? t) with false by (symmetry; apply Nat.eqb_neq; auto). rewrite XB. unfold x'. rewrite !cut_recolour. fold x' P P'. field. split; apply NZ; auto. }
  rewrite R1, R2. unfold x'. rewrite !cut_recolour. split.
  - apply min1_flow; apply mul_pos; auto.
  - field. repeat split; apply NZ; auto.
Qed.
End Props.
Print Assumptions C70_new.
Print Assumptions C70_valid.
Print Assumptions C70_chain.
Print Assumptions C70_linked.
Print Assumptions C70_best.
Print Assumptions C70_edges.
Print Assumptions C70_share.
Print Assumptions C70_balance.

(** ** A model without variables *)
Theorem C70_no_variables_refuted : forall T (OP : oper T) mult ACC prob par dr, sp_start par = [] -> 0 < sp_burn par + sp_steps par -> exists s, sw_new T OP prob (mkGmv [] []) par = Ret s /\ sw_infer T OP mult ACC prob (mkGmv [] []) par dr s = Undef.
Proof.
  intros T OP mult ACC prob par dr E P. eexists. split. { unfold sw_new. rewrite E. reflexivity. } unfold sw_infer. destruct (sp_burn par + sp_steps par) as [|k]; [lia|]. reflexivity.
Qed.
Print Assumptions C70_no_variables_refuted.

(** ** Examples *)
Definition prq (t : Qc) : Qc := if Qc_lt t 0 then 1%Qc else (/ (1 + t))%Qc.
Lemma prq_pos : forall t, (0 < prq t)%Qc.
Proof.
  intros t. unfold prq, Qc_lt. destruct (Qclt_le_dec t 0) as [H|H]; [exact eq_refl|]. assert (P : (0 < 1 + t)%Qc) by (apply Qclt_le_trans with 1%Qc; [exact eq_refl|qlra]).
  destruct (Qclt_le_dec 0 (/ (1 + t))) as [X|X]; auto. exfalso. assert (Y : (/ (1 + t) * (1 + t) <= 0 * (1 + t))%Qc) by (apply Qcmult_le_compat_r; auto; apply Qclt_le_weak; auto).
  rewrite Qcmult_inv_l in Y by (intros Z; rewrite Z in P; exact (Qclt_not_eq _ _ P eq_refl)). rewrite Qcmult_0_l in Y. exact (Qcle_not_lt 1 0 Y eq_refl).
Qed.
Definition single : gmv Qc := mkGmv [2] [([0], fun c => match c with [0] => Qc_of 5 | _ => Qc_of 2 end)].
Definition half : Qc := Q2Qc (1 # 2).
Definition tenth : Qc := Q2Qc (1 # 10).
Definition dr1 : swdraws := mkSwdraws (fun _ _ _ => tenth) (fun it => it) (fun it => S it) (fun _ => half).
Lemma dr1_ok : draws_ok dr1.
Proof. intros it u j. split; [apply Qclt_le_weak; exact eq_refl|exact eq_refl]. Qed.
(** With an initial state arg() is all zero, and stays so although the initial state is better and the best value is that of the initial state. *)
Theorem C70_start_refuted : let par := mkSwpar 3 0 tenth [1] in wf_gmv single /\ labeling single (sp_start par) /\ exists s s' calls, sw_new Qc AdderQ prq single par = Ret s /\ sw_infer Qc AdderQ false MinimizerQ prq single par dr1 s = Ret (s', calls) /\
  sw_arg s' = [0] /\ (total AdderQ single [1%nat] < total AdderQ single (sw_arg s'))%Qc /\ sw_value s' = total AdderQ single [1] /\ In [1] (accepted_states calls).
Proof.
  cbv zeta. split; [split; [constructor; [split; [repeat constructor|repeat constructor]|constructor]|repeat constructor]|]. split; [repeat constructor|].
  destruct (sw_new Qc AdderQ prq single (mkSwpar 3 0 tenth [1])) as [s| | |] eqn:E; try (vm_compute in E; discriminate E). exists s.
  destruct (sw_infer Qc AdderQ false MinimizerQ prq single (mkSwpar 3 0 tenth [1]) dr1 s) as [[s' calls]| | |] eqn:E2; vm_compute in E; injection E as <-; vm_compute in E2; try discriminate E2. injection E2 as <- <-.
  eexists _, _. split; [reflexivity|]. split; [reflexivity|]. split; [reflexivity|]. split; [vm_compute; reflexivity|]. split; [vm_compute; reflexivity|]. vm_compute. auto.
Qed.
Print Assumptions C70_start_refuted.
(** States of the burn-in are not remembered, even if they are better than arg(). *)
Theorem C70_burn_in_refuted : let par := mkSwpar 0 1 tenth [] in exists s s' calls, sw_new Qc AdderQ prq single par = Ret s /\ sw_infer Qc AdderQ false MinimizerQ prq single par dr1 s = Ret (s', calls) /\
  map sc_state calls = [[1]] /\ sw_arg s' = [0] /\ (total AdderQ single [1%nat] < total AdderQ single (sw_arg s'))%Qc.
Proof.
  cbv zeta. destruct (sw_new Qc AdderQ prq single (mkSwpar 0 1 tenth [])) as [s| | |] eqn:E; try (vm_compute in E; discriminate E). exists s.
  destruct (sw_infer Qc AdderQ false MinimizerQ prq single (mkSwpar 0 1 tenth []) dr1 s) as [[s' calls]| | |] eqn:E2; vm_compute in E; injection E as <-; vm_compute in E2; try discriminate E2. injection E2 as <- <-.
  eexists _, _. split; [reflexivity|]. split; [reflexivity|]. split; [reflexivity|]. split; [reflexivity|]. vm_compute. reflexivity.
Qed.
Print Assumptions C70_burn_in_refuted.

(** Three variables, of which two have two labels and one has three *)
Definition mixed : gmv Qc := mkGmv [2; 2; 3] [([0; 1], fun c => match c with [0; 0] => Qc_of 3 | [1; 1] => Qc_of 1 | _ => Qc_of 2 end); ([1; 2], fun c => match c with [0; 0] => Qc_of 0 | [1; 2] => Qc_of 0 | _ => Qc_of 1 end)].
Definition mixed_par : swpar := mkSwpar 4 1 tenth [].
Definition dr2 : swdraws := mkSwdraws (fun it _ _ => if it =? 1 then Q2Qc (9 # 10) else tenth) (fun it => it) (fun it => S it) (fun _ => Q2Qc (99 # 100)).
Example C70_ex : wf_gmv mixed /\ swstart_ok mixed mixed_par /\ draws_ok dr2 /\
  (r <- sw_run Qc AdderQ false MinimizerQ prq mixed mixed_par [SInfer dr2] ;; Ret (sw_arg (fst r), map (fun c => (sc_size c, sc_accepted c, sc_burning c, sc_state c)) (snd r))) =
  Ret ([1; 0; 0], [(2, true, true, [1; 1; 0]); (1, true, false, [1; 0; 0]); (1, true, false, [1; 0; 0]); (1, false, false, [1; 0; 0]); (1, false, false, [1; 0; 0])]).
Proof.
  split; [split; [repeat constructor|repeat constructor]|]. split; [left; auto|]. split; [intros it u j; cbn; destruct (it =? 1); split; try (apply Qclt_le_weak); exact eq_refl|]. vm_compute. reflexivity.
Qed.
Example C70_ex_laws : op_laws (fun _ => True) AdderQ /\ acc_laws (fun _ => True) AdderQ MinimizerQ /\ fin_gmv (fun _ => True) mixed /\ (forall t, (0 < prq t)%Qc) /\ exists s, sw_new Qc AdderQ prq mixed mixed_par = Ret s.
Proof.
  split; [apply adderQ_laws|]. split; [apply minimizerQ_laws|]. split; [repeat constructor|]. split; [apply prq_pos|]. eexists. vm_compute. reflexivity.
Qed.
(** Variables that are linked: the two with the same number of labels *)
Example C70_ex_linked : exists s, sw_new Qc AdderQ prq mixed mixed_par = Ret s /\ edge_at s 0 0 1 (at_ep (sw_ep s) 0 0) /\ turned_on s dr2 0 0 1 /\ cut s [0; 0; 0] [0] 0 = (1 - at_ep (sw_ep s) 0 0)%Qc.
Proof. eexists. split; [vm_compute; reflexivity|]. split; [split; vm_compute; reflexivity|]. split; [|vm_compute; reflexivity]. split; [lia|]. split; [reflexivity|]. exists 0. eexists. split; [split; vm_compute; reflexivity|]. vm_compute. reflexivity. Qed.
