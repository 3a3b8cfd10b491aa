(** C74: the solver of the sub-models of TRWS finds the best labeling of a sequence, whatever was called before. *)
From Coq Require Import QArith Qcanon.
From Verif Require Import Base Values GmView GmViewSpec ConstraintModel DualDecompProofs LpbModel PmModel TsModel TsSpec TsProofs TsStore.
Open Scope nat_scope.

(** A sequence of a model: factors of one variable for its variables, factors of two for its neighbours, and a positive number of sequences for every variable *)
Definition sequence (g : gmv Qc) (own : nat -> nat -> Qc) (vars pws nums : list nat) : Prop :=
  wf_gmv g /\ owns g own /\ chain g vars pws /\ Forall (has_own g) vars /\ length nums = length vars /\ Forall (fun k => 0 < k) nums.

Lemma new_ST : forall g own vars pws nums st, sequence g own vars pws nums -> ts_new g vars pws nums = Ret st -> st = ST g own vars pws nums.
Proof. intros g own vars pws nums st (W & O & C & U & K & KP) E. rewrite (new_ok g W own O vars pws nums C U K KP) in E. injection E as <-. reflexivity. Qed.
Lemma params_par : forall g ps, wf_gmv g -> ts_params g = Ret ps -> par_ok g ps.
Proof. intros g ps W E. destruct (params_ok g W) as (ps' & E' & P). rewrite E in E'. injection E' as <-. exact P. Qed.

(** The constructors accept every sequence and throw otherwise. *)
Theorem C74_new : forall g own vars pws nums, sequence g own vars pws nums -> (exists st, ts_new g vars pws nums = Ret st) /\ exists ps, ts_params g = Ret ps.
Proof.
  intros g own vars pws nums (W & O & C & U & K & KP). split; [eexists; apply (new_ok g W own O vars pws nums C U K KP)|]. destruct (params_ok g W) as (ps & E & _). eauto.
Qed.
Print Assumptions C74_new.
Theorem C74_new_throw : forall g vars pws nums, Forall (fun f => f < length (v_factors g)) pws -> ~ chain g vars pws -> ts_new g vars pws nums = Throw.
Proof. exact new_throw. Qed.
Print Assumptions C74_new_throw.

(** After every history of calls Move returns, the objective value is the smallest energy of the sequence, and the labeling has it. *)
Theorem C74_move : forall g own vars pws nums st ps fast h s, sequence g own vars pws nums -> ts_new g vars pws nums = Ret st -> ts_params g = Ret ps -> ts_run g st ps fast h = Ret s ->
  exists s' y, ts_move g st ps fast s = Ret s' /\ so_lab s' = map Some y /\ chain_labeling g vars y /\ chain_energy g own vars pws nums y = so_obj s' /\ least_energy g own vars pws nums (fun _ => True) (so_obj s').
Proof.
  intros g own vars pws nums st ps fast h s S E EP R. rewrite (new_ST _ _ _ _ _ _ S E) in *. destruct S as (W & O & C & U & K & KP). pose proof (params_par g ps W EP) as PO.
  assert (I : idle g own vars pws nums s) by (eapply run_idle; eauto).
  assert (X : exists s' d y, ts_move g (ST g own vars pws nums) ps fast s = Ret s' /\ tr g own vars pws nums d (length pws) (mg pws d s') /\ done g vars pws d s' y) by (eapply move_ok; eauto). destruct X as (s' & d & y & EM & T & DN).
  assert (Y : solved g own vars pws nums s') by (eapply done_solved; eauto). destruct Y as (z & Z1 & Z2 & Z3 & Z4). exists s', z. split; auto. split; auto. split; auto. split; auto. split; [exists z; auto|]. intros; auto.
Qed.
Print Assumptions C74_move.
(** InitMove and Move return in every order. *)
Theorem C74_history : forall g own vars pws nums st ps fast h, sequence g own vars pws nums -> ts_new g vars pws nums = Ret st -> ts_params g = Ret ps -> ~ In TBack h -> exists s, ts_run g st ps fast h = Ret s.
Proof.
  intros g own vars pws nums st ps fast h S E EP NB. rewrite (new_ST _ _ _ _ _ _ S E) in *. destruct S as (W & O & C & U & K & KP). pose proof (params_par g ps W EP) as PO. eapply run_total; eauto.
Qed.
Print Assumptions C74_history.
(** MoveBack after Move leaves for every label of every variable the smallest energy of the labelings with it, and the objective value. *)
Theorem C74_marginals : forall g own vars pws nums st ps fast h s s1, sequence g own vars pws nums -> ts_new g vars pws nums = Ret st -> ts_params g = Ret ps -> ts_run g st ps fast h = Ret s -> ts_move g st ps fast s = Ret s1 ->
  exists s2 y, ts_moveBack g st ps fast s1 = Ret s2 /\ so_lab s2 = map Some y /\ chain_labeling g vars y /\ least_energy g own vars pws nums (fun _ => True) (so_obj s2) /\ length (so_marg s2) = length vars /\
    forall i, i < length vars -> length (nth i (so_marg s2) []) = nth (nth i vars 0) (v_labels g) 0 /\
      forall l, l < nth (nth i vars 0) (v_labels g) 0 -> least_energy g own vars pws nums (fun y => nth i y 0 = l) (nth l (nth i (so_marg s2) []) 0%Qc).
Proof.
  intros g own vars pws nums st ps fast h s s1 S E EP R EM. rewrite (new_ST _ _ _ _ _ _ S E) in *. destruct S as (W & O & C & U & K & KP). pose proof (params_par g ps W EP) as PO.
  assert (I : idle g own vars pws nums s) by (eapply run_idle; eauto).
  assert (X : exists s' d y, ts_move g (ST g own vars pws nums) ps fast s = Ret s' /\ tr g own vars pws nums d (length pws) (mg pws d s') /\ done g vars pws d s' y) by (eapply move_ok; eauto). destruct X as (s' & d & y & EM' & T & DN). rewrite EM in EM'. injection EM' as <-.
  assert (X : exists s2 d2 y2, ts_moveBack g (ST g own vars pws nums) ps fast s1 = Ret s2 /\ marginals_ok g own vars pws nums s2 /\ done g vars pws d2 s2 y2) by (eapply back_ok; eauto). destruct X as (s2 & d2 & y2 & E2 & MO & DN2).
  assert (Y : exists z, so_lab s2 = map Some z /\ chain_labeling g vars z) by (eapply done_labels; eauto). destruct Y as (z & Z1 & Z2). exists s2, z. split; auto. split; auto. split; auto. split; [eapply done_least; eauto|]. exact MO.
Qed.
Print Assumptions C74_marginals.
(** evaluate is the energy when the factors have their variables in the order of the sequence. *)
Theorem C74_evaluate : forall g own vars pws nums st y, sequence g own vars pws nums -> ts_new g vars pws nums = Ret st ->
  (forall i fc, i < length pws -> nth_error (v_factors g) (nth i pws 0) = Some fc -> fst fc = [nth i vars 0; nth (S i) vars 0]) -> chain_labeling g vars y -> ts_evaluate g st y = Ret (chain_energy g own vars pws nums y).
Proof.
  intros g own vars pws nums st y S E D CL. rewrite (new_ST _ _ _ _ _ _ S E) in *. destruct S as (W & O & C & U & K & KP). eapply evaluate_ok; eauto. intros i Hi. unfold dirOf. destruct (proj2 C i Hi) as (fc & NE & _). rewrite NE, (D i fc Hi NE). cbn. apply Nat.eqb_refl.
Qed.
Print Assumptions C74_evaluate.

(** A sequence against the order of the variables, with a Potts factor, one that is less than its diagonal elsewhere, and one that is no Potts factor *)
Definition qz (z : Z) : Qc := Q2Qc (inject_Z z).
Definition pick (l : list Z) (i : nat) : Qc := qz (nth i l 0%Z).
Definition g4 : gmv Qc := mkGmv [2; 3; 2; 3]
  [([0], fun x => pick [4; 1]%Z (nth 0 x 0)); ([1], fun x => pick [0; 2; 5]%Z (nth 0 x 0)); ([2], fun x => pick [3; 0]%Z (nth 0 x 0)); ([3], fun x => pick [1; 1; 0]%Z (nth 0 x 0));
   ([0; 1], fun x => if nth 0 x 0 =? nth 1 x 0 then qz 1 else qz 4);
   ([1; 2], fun x => if nth 0 x 0 =? nth 1 x 0 then qz 3 else qz (-2));
   ([2; 3], fun x => pick [0; 7; 2; 5; 1; 3]%Z (nth 0 x 0 + 2 * nth 1 x 0))].
Definition own4 (v l : nat) : Qc := nth v [pick [4; 1]%Z l; pick [0; 2; 5]%Z l; pick [3; 0]%Z l; pick [1; 1; 0]%Z l] 0%Qc.
Lemma sequence_g4 : sequence g4 own4 [3; 2; 1; 0] [6; 5; 4] [1; 2; 1; 1].
Proof.
  split; [|split; [|split; [|split; [|split; [|]]]]].
  - split; [|repeat constructor]. repeat constructor.
  - intros v fc l I E. cbn in I. repeat (destruct I as [<-|I]; [try discriminate E; cbn in E; injection E as <-; reflexivity|]). destruct I.
  - split; auto. intros i Hi. cbn in Hi. destruct i as [|[|[|]]]; [| | |lia]; (eexists; split; [reflexivity|]; right; reflexivity).
  - repeat constructor; cbn; try lia; eexists; [right; right; right; left|right; right; left|right; left|left]; reflexivity.
  - reflexivity.
  - repeat constructor; lia.
Qed.
Definition run4 (fast : bool) (h : list top) : outcome (list (option nat) * Qc * list (list Qc)) :=
  st <- ts_new g4 [3; 2; 1; 0] [6; 5; 4] [1; 2; 1; 1] ;; ps <- ts_params g4 ;; s <- ts_run g4 st ps fast h ;; Ret (so_lab s, so_obj s, so_marg s).
Example C74_move_met : sequence g4 own4 [3; 2; 1; 0] [6; 5; 4] [1; 2; 1; 1] /\ (exists st ps, ts_new g4 [3; 2; 1; 0] [6; 5; 4] [1; 2; 1; 1] = Ret st /\ ts_params g4 = Ret ps /\ exists s, ts_run g4 st ps true [TInit false; TMove; TBack; TMove; TInit true] = Ret s) /\
  chain_labeling g4 [3; 2; 1; 0] [1; 0; 1; 1].
Proof.
  split; [exact sequence_g4|]. split.
  - destruct (C74_new g4 own4 _ _ _ sequence_g4) as [(st & E) (ps & EP)]. exists st, ps. split; auto. split; auto.
    pose proof E as E'. vm_compute in E'. injection E' as <-. pose proof EP as EP'. vm_compute in EP'. injection EP' as <-. eexists. vm_compute. reflexivity.
  - split; auto. intros i Hi. cbn in Hi. destruct i as [|[|[|[|]]]]; cbn; lia.
Qed.

(** evaluate gives a wrong value when a factor has its variables in the opposite order. *)
Definition g2 : gmv Qc := mkGmv [2; 2] [([0], fun _ => 0%Qc); ([1], fun _ => 0%Qc); ([0; 1], fun x => pick [0; 1; 0; 0]%Z (nth 0 x 0 + 2 * nth 1 x 0))].
Theorem C74_evaluate_refuted : exists g own vars pws nums st y, sequence g own vars pws nums /\ ts_new g vars pws nums = Ret st /\ chain_labeling g vars y /\ chain_energy g own vars pws nums y = 1%Qc /\ ts_evaluate g st y = Ret 0%Qc.
Proof.
  assert (S : sequence g2 (fun _ _ => 0%Qc) [1; 0] [2] [1; 1]).
  { split; [|split; [|split; [|split; [|split; [|]]]]].
    - split; [|repeat constructor]. repeat constructor.
    - intros v fc l I E. cbn in I. repeat (destruct I as [<-|I]; [try discriminate E; cbn in E; injection E as <-; reflexivity|]). destruct I.
    - split; auto. intros i Hi. cbn in Hi. destruct i as [|]; [|lia]. eexists; split; [reflexivity|]; right; reflexivity.
    - repeat constructor; cbn; try lia; eexists; [right; left|left]; reflexivity.
    - reflexivity.
    - repeat constructor; lia. }
  destruct (C74_new _ _ _ _ _ S) as [(st & E) _]. exists g2, (fun _ _ => 0%Qc), [1; 0], [2], [1; 1], st, [0; 1]. split; auto. split; auto. pose proof E as E'. vm_compute in E'. injection E' as <-. split; [|split].
  - split; auto. intros i Hi. cbn in Hi. destruct i as [|[|]]; cbn; lia.
  - apply Qc_is_canon. vm_compute. reflexivity.
  - vm_compute. reflexivity.
Qed.
Print Assumptions C74_evaluate_refuted.

(** After MoveBack the labeling need not have the objective value. *)
Definition g3 : gmv Qc := mkGmv [2; 2] [([0], fun x => pick [0; 100]%Z (nth 0 x 0)); ([1], fun x => pick [0; 11]%Z (nth 0 x 0)); ([0; 1], fun x => pick [0; 0; -10; 0]%Z (nth 0 x 0 + 2 * nth 1 x 0))].
Definition own3 (v l : nat) : Qc := nth v [pick [0; 100]%Z l; pick [0; 11]%Z l] 0%Qc.
Lemma sequence_g3 : sequence g3 own3 [0; 1] [2] [1; 1].
Proof.
  split; [|split; [|split; [|split; [|split; [|]]]]].
  - split; [|repeat constructor]. repeat constructor.
  - intros v fc l I E. cbn in I. repeat (destruct I as [<-|I]; [try discriminate E; cbn in E; injection E as <-; reflexivity|]). destruct I.
  - split; auto. intros i Hi. cbn in Hi. destruct i as [|]; [|lia]. eexists; split; [reflexivity|]; left; reflexivity.
  - repeat constructor; cbn; try lia; eexists; [left|right; left]; reflexivity.
  - reflexivity.
  - repeat constructor; lia.
Qed.
Theorem C74_back_labeling_refuted : exists g own vars pws nums st ps s y, sequence g own vars pws nums /\ ts_new g vars pws nums = Ret st /\ ts_params g = Ret ps /\ ts_run g st ps true [TInit true; TMove; TBack] = Ret s /\
  so_lab s = map Some y /\ (so_obj s < chain_energy g own vars pws nums y)%Qc.
Proof.
  destruct (C74_new _ _ _ _ _ sequence_g3) as [(st & E) (ps & EP)]. exists g3, own3, [0; 1], [2], [1; 1], st, ps. pose proof E as E'. vm_compute in E'. injection E' as E'. pose proof EP as EP'. vm_compute in EP'. injection EP' as EP'.
  destruct (ts_run g3 st ps true [TInit true; TMove; TBack]) as [s| | |] eqn:R; try (subst st ps; vm_compute in R; discriminate R). exists s, [0; 1]. split; [exact sequence_g3|]. split; auto. split; auto. split; auto.
  subst st ps. vm_compute in R. injection R as <-. split; [reflexivity|]. vm_compute. reflexivity.
Qed.
Print Assumptions C74_back_labeling_refuted.
(** MoveBack before all other calls reads outside a vector when there is one variable. *)
Theorem C74_back_first_refuted : exists g own vars pws nums st ps, sequence g own vars pws nums /\ ts_new g vars pws nums = Ret st /\ ts_params g = Ret ps /\ ts_run g st ps true [TBack] = Undef.
Proof.
  assert (S : sequence g3 own3 [0] [] [1]).
  { destruct sequence_g3 as (W & O & _ & U & _). split; auto. split; auto. split; [split; [auto|intros i Hi; cbn in Hi; lia]|]. split; [inversion U; auto|]. split; auto. }
  destruct (C74_new _ _ _ _ _ S) as [(st & E) (ps & EP)]. exists g3, own3, [0], [], [1], st, ps. split; auto. split; auto. split; auto. rewrite (new_ST _ _ _ _ _ _ S E). vm_compute. reflexivity.
Qed.
Print Assumptions C74_back_first_refuted.
