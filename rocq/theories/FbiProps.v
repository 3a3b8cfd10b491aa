(** C58: FusionBasedInf and its proposal generators.
    Spec: FbiSpec.v, FmSpec.v, FuseSpec.v (fused, expansion_of), AlphaBetaSwapSpec.v (swap_of), GmViewSpec.v; model: FbiModel.v
    (inference/fusion_based_inf.hxx). *)
From Coq Require Import QArith Qcanon Sorting.Sorted Permutation.
From Verif Require Import Base Values GmView GmViewSpec ShapeSpec AlphaBetaSwapSpec OperationsModel GmViewProps DualDecompModel HoeModel HoeProofs FuseModel FuseSpec HqpboModel FuseMoves FuseProps GmViewProofs FmModel FmSpec FmProofs FmProps FbiModel FbiSpec FbiProofs FbiCyclic.
Open Scope nat_scope.

Section Fbi.
Variables (T : Type) (fin : T -> Prop) (OP : oper T) (ACC : accum T) (g : gmv T) (solvers : hlsolvers T) (kind : fusionSolver) (p : fbparam) (d : nat).
Let n := length (v_labels g).
Hypothesis OL : op_laws fin OP.
Hypothesis AL : acc_laws fin OP ACC.
Hypothesis AT : acc_total fin ACC.
Hypothesis W : wf_gmv g.
Hypothesis FG : fin_gmv fin g.
Hypothesis HD : order_at_most d g.
Hypothesis SO : solvers_ok d solvers kind.

Lemma run_ok (gen : propgen) (I : pg_state gen -> Prop) : I (pg_init gen) -> (forall s x, I s -> labeling g x -> exists s' y, pg_next gen s x = Ret (s', y) /\ I s' /\ labeling g y) ->
  forall ops, Forall (fb_legal g) ops -> exists s, fb_run T OP ACC g gen solvers kind p ops = Ret s /\ consistent T OP g gen s /\ I (fb_gen s) /\
    (if fb_stop s =? 0 then pg_stop gen else fb_stop s) = (if fb_numStopIt p =? 0 then pg_stop gen else fb_numStopIt p).
Proof.
  intros I0 IN ops LO. unfold fb_run. destruct (new_ok T OP ACC g gen p W) as (s0 & E0 & C0 & G0 & S0 & _). rewrite E0. cbn [bind].
  assert (Q0 : I (fb_gen s0)) by (rewrite G0; exact I0).
  assert (R0 : (if fb_stop s0 =? 0 then pg_stop gen else fb_stop s0) = (if fb_numStopIt p =? 0 then pg_stop gen else fb_numStopIt p)) by (rewrite S0; reflexivity). clear E0 G0 S0. revert s0 C0 Q0 R0. induction LO as [|o ops Ho _ IH]; intros s C Q R; cbn [foldM]; [exists s; auto|].
  destruct o as [stop|x]; cbn [fb_step].
  - destruct (infer_ok T fin OP ACC g gen solvers kind p d OL AL AT W FG HD SO I IN stop s C Q) as (s' & e & E & C' & Q' & _ & S'). rewrite E. cbn [bind]. apply IH; auto. rewrite S', <- R. destruct (Nat.eqb_spec (fb_stop s) 0) as [Z|Z]; [destruct (Nat.eqb_spec (pg_stop gen) 0); congruence|rewrite (proj2 (Nat.eqb_neq _ _) Z); reflexivity].
  - destruct (set_ok T OP g gen W s x Ho) as (s' & E & C' & _ & G' & S'). rewrite E. cbn [bind]. apply IH; auto; [rewrite G'; exact Q|rewrite S'; exact R].
Qed.
(** Whatever was called before, and for every visitor: arg() is a labeling, value() its value, and infer does not make it
    worse. *)
Theorem C58_never_worse gen ops : proposes_labelings g gen -> Forall (fb_legal g) ops ->
  exists s, fb_run T OP ACC g gen solvers kind p ops = Ret s /\ labeling g (fb_arg s) /\ fb_value s = total OP g (fb_arg s) /\
    forall stop, exists s' e, fb_infer T OP ACC g gen solvers kind p stop s = Ret (s', e) /\ labeling g (fb_arg s') /\ fb_value s' = total OP g (fb_arg s') /\ as_good OP ACC g (fb_arg s') (fb_arg s).
Proof.
  intros (I & I0 & IN) LO. destruct (run_ok gen I I0 IN ops LO) as (s & E & [C1 C2] & Q & _). exists s. split; [exact E|]. split; [exact C1|]. split; [exact C2|]. intros stop.
  destruct (infer_ok T fin OP ACC g gen solvers kind p d OL AL AT W FG HD SO I IN stop s (conj C1 C2) Q) as (s' & e & E' & [C1' C2'] & _ & G & _). exists s', e. auto.
Qed.
(** The default start: the label of a variable with unary factors is best for the last of them; others get label 0. *)
Theorem C58_start gen : exists s, fb_new T OP ACC g gen p = Ret s /\ labeling g (fb_arg s) /\ fb_value s = total OP g (fb_arg s) /\
  forall i k, nth_error (v_labels g) i = Some k ->
    (forall fi fc, nth_error (v_factors g) fi = Some fc -> fst fc = [i] -> (forall fj fcj, fi < fj -> nth_error (v_factors g) fj = Some fcj -> fst fcj <> [i]) ->
       acc_select fin ACC -> forall l, l < k -> a_bop ACC (snd fc [l]) (snd fc [nth i (fb_arg s) 0]) = false) /\
    ((forall fi fc, nth_error (v_factors g) fi = Some fc -> fst fc <> [i]) -> nth i (fb_arg s) 0 = 0).
Proof.
  destruct (new_ok T OP ACC g gen p W) as (s & E & [C1 C2] & _ & _ & EM). exists s. split; [exact E|]. split; [exact C1|]. split; [exact C2|]. intros i k Ek.
  assert (Hi : i < n) by (apply nth_error_Some; rewrite Ek; discriminate).
  assert (Pk : 0 < k). { destruct W as [_ WP]. unfold positive in WP. rewrite Forall_forall in WP. specialize (WP k (nth_error_In _ _ Ek)). lia. }
  destruct (startLabel_ok T ACC g i k Ek Pk) as (a & Ea & La & Ha).
  assert (EA : nth i (fb_arg s) 0 = a).
  { assert (G : forall l xs j, mapM (fb_startLabel T ACC g) l = Ret xs -> j < length l -> fb_startLabel T ACC g (nth j l 0) = Ret (nth j xs 0)).
    { induction l as [|v l IH]; intros xs j; cbn [mapM]; [cbn; intros; lia|]. destruct (fb_startLabel T ACC g v) as [y| | |] eqn:Ey; cbn [bind]; try discriminate. destruct (mapM _ l) as [ys| | |] eqn:Eys; cbn [bind]; try discriminate. intros X. injection X as <-. destruct j as [|j]; cbn [length nth]; intros Hj; [exact Ey|apply IH; [reflexivity|lia]]. }
    specialize (G _ _ i EM). rewrite seq_length in G. specialize (G Hi). rewrite seq_nth in G by exact Hi. cbn [Nat.add] in G. rewrite Ea in G. injection G as <-. reflexivity. }
  rewrite EA. split.
  - intros fi fc Ef Ev LAST AS l Hl.
    assert (AD : exists fs rest, v_adj T g i = fs ++ fi :: rest /\ forall fj, In fj rest -> fi < fj).
    { assert (Hf : fi < length (v_factors g)) by (apply nth_error_Some; rewrite Ef; discriminate). unfold v_adj. replace (seq 0 (length (v_factors g))) with (seq 0 fi ++ fi :: seq (S fi) (length (v_factors g) - S fi)) by (change (fi :: seq (S fi) (length (v_factors g) - S fi)) with (seq fi (S (length (v_factors g) - S fi))); rewrite <- seq_app; f_equal; lia).
      rewrite filter_app. cbn [filter]. rewrite Ef. destruct fc as [fv ff]. cbn [fst] in Ev. subst fv. cbn [existsb]. rewrite Nat.eqb_refl. cbn [orb]. eexists. eexists. split; [reflexivity|]. intros fj H. apply filter_In in H. destruct H as [H _]. apply in_seq in H. lia. }
    destruct AD as (fs & rest & EQ & HR). destruct (Ha fs fi rest fc EQ Ef) as (conf & Hc & ->); [rewrite Ev; reflexivity| |].
    { intros fj fcj Hj Efj L1. apply (LAST fj fcj (HR fj Hj) Efj). assert (H : In fj (v_adj T g i)) by (rewrite EQ; apply in_or_app; right; right; exact Hj). apply filter_In in H. destruct H as [_ H]. rewrite Efj in H. destruct fcj as [vs ff]. cbn [fst] in *. destruct vs as [|v [|w vs]]; try discriminate L1. cbn in H. rewrite orb_false_r in H. apply Nat.eqb_eq in H. subst v. reflexivity. }
    apply (scan_best T fin OP ACC g AL fc k conf AS); [|exact Hl]. intros l' Hl'. pose proof FG as FG'. unfold fin_gmv in FG'. rewrite Forall_forall in FG'. specialize (FG' fc (nth_error_In _ _ Ef) (map (fun j => if j =? i then l' else 0) (seq 0 n))). rewrite Ev in FG'. unfold at_vars in FG'. cbn [map] in FG'. rewrite nth_map_seq in FG' by exact Hi. rewrite Nat.eqb_refl in FG'. apply FG'. apply labeling_nth. rewrite map_length, seq_length. split; [reflexivity|]. intros v Hv. rewrite nth_map_seq by exact Hv. destruct (Nat.eqb_spec v i) as [->|NE]; [rewrite (nth_error_nth _ _ 0 Ek); exact Hl'|]. destruct W as [_ WP]. unfold positive in WP. rewrite Forall_forall in WP. specialize (WP (nth v (v_labels g) 0) ltac:(apply nth_In; exact Hv)). lia.
  - intros NU. assert (X : fb_startLabel T ACC g i = Ret 0); [|congruence]. apply (startLabel_none T ACC g i k Ek). intros fj fcj Hj Efj L1. apply (NU fj fcj Efj). apply filter_In in Hj. destruct Hj as [_ H]. rewrite Efj in H. destruct fcj as [vs ff]. cbn [fst] in *. destruct vs as [|v [|w vs]]; try discriminate L1. cbn in H. rewrite orb_false_r in H. apply Nat.eqb_eq in H. subst v. reflexivity.
Qed.

(** AlphaExpansionGen with an exact solver and the default number of rounds without improvement, or at least as many as
    there are labels: when the rounds are used up, no expansion move improves the labeling. *)
Theorem C58_alpha_expansion ops s stop s' : solvers_exact fin OP ACC d solvers kind -> Forall (fb_legal g) ops ->
  fb_numStopIt p = 0 \/ (forall k, In k (v_labels g) -> k <= fb_numStopIt p) ->
  fb_run T OP ACC g (AlphaExpansionGen T g) solvers kind p ops = Ret s -> fb_infer T OP ACC g (AlphaExpansionGen T g) solvers kind p stop s = Ret (s', EndConverged) ->
  forall a y, labeling g y -> FuseSpec.expansion_of a (fb_arg s') y -> as_good OP ACC g (fb_arg s') y.
Proof.
  intros SE LO NS ER EI a y Ly EX. set (M := pg_maxLabel T g).
  assert (MM : forall b, M <= b <-> (forall k, In k (v_labels g) -> k <= b)).
  { intros b. unfold M, pg_maxLabel. assert (G : forall l c, fold_left (fun m k => if m <? k then k else m) l c <= b <-> c <= b /\ forall k, In k l -> k <= b).
    { induction l as [|k l IH]; intros c; cbn [fold_left]; [split; [intros; split; [assumption|intros k []]|tauto]|]. rewrite IH. split.
      - intros [H1 H2]. destruct (Nat.ltb_spec c k); (split; [lia|]; intros j [<-|Hj]; [lia|apply H2; exact Hj]).
      - intros [H1 H2]. split; [destruct (Nat.ltb_spec c k); [apply H2; left; reflexivity|exact H1]|intros; apply H2; right; assumption]. }
    rewrite G. split; [tauto|]. intros; split; [lia|assumption]. }
  assert (INV : 0 < M -> exists s, fb_run T OP ACC g (AlphaExpansionGen T g) solvers kind p ops = Ret s /\ consistent T OP g (AlphaExpansionGen T g) s /\ (fb_gen s : nat) < M /\
    (if fb_stop s =? 0 then M else fb_stop s) = (if fb_numStopIt p =? 0 then M else fb_numStopIt p)).
  { intros MP. apply (run_ok (AlphaExpansionGen T g) (fun s => (s : nat) < M)); [exact MP| |exact LO]. intros a0 x Ha Lx. destruct (ae_next_ok T g a0 x Ha Lx) as (s1 & E1 & E2 & L1). exists s1, (ae_move T g a0 x). split; [exact E1|]. split; [|exact L1]. rewrite E2. fold M. destruct (Nat.eqb_spec (S a0) M); lia. }
  assert (CONS : consistent T OP g (AlphaExpansionGen T g) s).
  { destruct (Nat.eq_dec M 0) as [Z|NZ].
    - (* no variables *)
      assert (EL : v_labels g = []). { destruct (v_labels g) as [|k l] eqn:EL; [reflexivity|]. destruct W as [_ WP]. unfold positive in WP. rewrite EL in WP. inversion WP; subst. assert (k <= 0) by (apply (proj1 (MM 0) ltac:(lia)); left; reflexivity). lia. }
      destruct (run_ok (AlphaExpansionGen T g) (fun _ => True) I) with (ops := ops) as (s0 & E0 & C0 & _); [|exact LO|assert (s0 = s) by congruence; subst s0; exact C0].
      intros a0 x _ Lx. cbn [pg_next AlphaExpansionGen]. unfold ae_next. rewrite EL. cbn [length seq mapM bind]. eexists. eexists. split; [reflexivity|]. split; [exact I|]. apply labeling_nth. rewrite EL. split; [reflexivity|cbn; intros; lia].
    - destruct (INV ltac:(lia)) as (s0 & E0 & C0 & _). assert (s0 = s) by congruence. subst s0. exact C0. }
  assert (CONS' : labeling g (fb_arg s')).
  { destruct (Nat.eq_dec M 0) as [Z|NZ].
    - assert (EL : v_labels g = []). { destruct (v_labels g) as [|k l] eqn:EL; [reflexivity|]. destruct W as [_ WP]. unfold positive in WP. rewrite EL in WP. inversion WP; subst. assert (k <= 0) by (apply (proj1 (MM 0) ltac:(lia)); left; reflexivity). lia. }
      destruct (infer_ok T fin OP ACC g (AlphaExpansionGen T g) solvers kind p d OL AL AT W FG HD SO (fun _ => True)) with (stop := stop) (s := s) as (s1 & e & E1 & [L1 _] & _); [|exact CONS|exact I|rewrite EI in E1; injection E1 as -> _; exact L1].
      intros a0 x _ Lx. cbn [pg_next AlphaExpansionGen]. unfold ae_next. rewrite EL. cbn [length seq mapM bind]. eexists. eexists. split; [reflexivity|]. split; [exact I|]. apply labeling_nth. rewrite EL. split; [reflexivity|cbn; intros; lia].
    - destruct (INV ltac:(lia)) as (s0 & E0 & C0 & Q0 & _). assert (s0 = s) by congruence. subst s0.
      destruct (infer_ok T fin OP ACC g (AlphaExpansionGen T g) solvers kind p d OL AL AT W FG HD SO (fun s => (s : nat) < M)) with (stop := stop) (s := s) as (s1 & e & E1 & [L1 _] & _); [|exact CONS|exact Q0|rewrite EI in E1; injection E1 as -> _; exact L1].
      intros a0 x Ha Lx. destruct (ae_next_ok T g a0 x Ha Lx) as (s1 & E1 & E2 & L1). exists s1, (ae_move T g a0 x). split; [exact E1|]. split; [|exact L1]. rewrite E2. fold M. destruct (Nat.eqb_spec (S a0) M); lia. }
  destruct (Nat.lt_ge_cases a M) as [Ha|Ha].
  - destruct (INV ltac:(lia)) as (s0 & E0 & C0 & Q0 & R0). assert (s0 = s) by congruence. subst s0.
    refine (cyclic_infer T fin OP ACC g (AlphaExpansionGen T g) solvers kind p d OL AL AT W FG HD SO SE M (ae_move T g) (fun s i => (s : nat) = i /\ i < M) _ _ stop s (fb_gen s) s' C0 _ _ EI a Ha y _).
    + intros s1 i [_ H]. exact H.
    + intros s1 i x [-> Hi] Lx. destruct (ae_next_ok T g i x Hi Lx) as (s2 & E2 & E3 & L2). exists s2. split; [exact E2|]. split; [|exact L2]. fold M in E3. split; [exact E3|]. destruct (Nat.eqb_spec (S i) M); lia.
    + split; [reflexivity|exact Q0].
    + change (pg_stop (AlphaExpansionGen T g)) with M. rewrite R0. destruct (Nat.eqb_spec (fb_numStopIt p) 0); [lia|]. destruct NS as [NS|NS]; [lia|]. apply MM. exact NS.
    + apply ae_move_fused; assumption.
  - replace y with (fb_arg s'); [apply (good_refl T fin OP ACC g OL AL W FG); exact CONS'|]. destruct EX as [EL EX]. apply (nth_ext _ _ 0 0); [symmetry; exact EL|]. intros v Hv. destruct (EX v Hv) as [E|E]; [symmetry; exact E|]. exfalso.
    apply labeling_nth in Ly. destruct Ly as [L1 L2]. assert (Hn : v < length (v_labels g)) by lia. specialize (L2 v ltac:(lia)). rewrite E in L2. assert (nth v (v_labels g) 0 <= M) by (apply (proj1 (MM M) (Nat.le_refl M)); apply nth_In; exact Hn). lia.
Qed.
(** AlphaBetaSwapGen with at least k(k-1) rounds without improvement, for at most k labels: no swap move improves. *)
Theorem C58_swap ops s stop s' k : solvers_exact fin OP ACC d solvers kind -> Forall (fb_legal g) ops -> 2 <= k -> (forall l, In l (v_labels g) -> l <= k) -> k * k - k <= fb_numStopIt p ->
  fb_run T OP ACC g (AlphaBetaSwapGen T g) solvers kind p ops = Ret s -> fb_infer T OP ACC g (AlphaBetaSwapGen T g) solvers kind p stop s = Ret (s', EndConverged) ->
  forall a b y, labeling g y -> swap_of a b (fb_arg s') y -> as_good OP ACC g (fb_arg s') y.
Proof.
  intros SE LO K2 KM NS ER EI a b y Ly SW. set (M := pg_maxLabel T g).
  assert (MK : M <= k).
  { unfold M, pg_maxLabel. revert KM. assert (G : forall l c, c <= k -> (forall j, In j l -> j <= k) -> fold_left (fun m k => if m <? k then k else m) l c <= k); [|intros; apply G; [lia|assumption]].
    induction l as [|j l IH]; intros c Hc Hl; cbn [fold_left]; [exact Hc|]. apply IH; [destruct (Nat.ltb_spec c j); [apply Hl; left; reflexivity|exact Hc]|intros; apply Hl; right; assumption]. }
  assert (SAME : forall x, labeling g x -> (forall v, v < length x -> nth v y 0 = nth v x 0) -> length y = length x -> as_good OP ACC g x y).
  { intros x Lx H E. replace y with x; [apply (good_refl T fin OP ACC g OL AL W FG); exact Lx|]. apply (nth_ext _ _ 0 0); [symmetry; exact E|]. intros v Hv. symmetry. apply H. exact Hv. }
  destruct (Nat.lt_ge_cases M 2) as [M2|M2].
  - assert (IN : forall (s0 : nat * nat) x, True -> labeling g x -> exists s1 z, pg_next (AlphaBetaSwapGen T g) s0 x = Ret (s1, z) /\ True /\ labeling g z).
    { intros s0 x _ Lx. cbn [pg_next AlphaBetaSwapGen]. unfold ab_next. fold M. rewrite (proj2 (Nat.ltb_lt M 2) M2). exists s0, x. auto. }
    destruct (run_ok (AlphaBetaSwapGen T g) (fun _ => True) I IN ops LO) as (s0 & E0 & C0 & _). assert (s0 = s) by congruence. subst s0.
    destruct (infer_ok T fin OP ACC g (AlphaBetaSwapGen T g) solvers kind p d OL AL AT W FG HD SO (fun _ => True) IN stop s C0 I) as (s1 & e & E1 & [L1 _] & _). rewrite EI in E1. injection E1 as <- _.
    destruct SW as [EL SW]. apply SAME; [exact L1|intros v Hv|exact EL]. apply labeling_nth in L1. apply labeling_nth in Ly. destruct L1 as [N1 L1], Ly as [N2 L2]. assert (Hn : v < length (v_labels g)) by lia. pose proof (maxLabel_ge T g v Hn) as MX. fold M in MX. specialize (L1 v ltac:(lia)). specialize (L2 v ltac:(lia)). lia.
  - set (J := fun (s : nat * nat) i => at_move M s i).
    assert (IN : forall (s0 : nat * nat) x, (exists i, J s0 i) -> labeling g x -> exists s1 z, pg_next (AlphaBetaSwapGen T g) s0 x = Ret (s1, z) /\ (exists i, J s1 i) /\ labeling g z).
    { intros s0 x [i HJ] Lx. destruct (ab_next_ok T g s0 i x M2 HJ Lx) as (s1 & E1 & J1 & L1). exists s1. eexists. split; [exact E1|]. split; [eexists; exact J1|exact L1]. }
    destruct (run_ok (AlphaBetaSwapGen T g) (fun s => exists i, J s i)) with (ops := ops) as (s0 & E0 & C0 & (i0 & Q0) & R0); [exists 0; apply at_move_init; exact M2|exact IN|exact LO|]. assert (s0 = s) by congruence. subst s0.
    destruct (infer_ok T fin OP ACC g (AlphaBetaSwapGen T g) solvers kind p d OL AL AT W FG HD SO (fun s => exists i, J s i) IN stop s C0 (ex_intro _ i0 Q0)) as (s1 & e & E1 & [L1 _] & _). rewrite EI in E1. injection E1 as <- _.
    assert (KK : moves M <= fb_numStopIt p) by (rewrite moves_eq by exact M2; nia).
    assert (ALL : forall i, i < moves M -> no_gain T OP ACC g (fun i => swap_move T g (swap_pair M i)) (fb_arg s') i).
    { refine (cyclic_infer T fin OP ACC g (AlphaBetaSwapGen T g) solvers kind p d OL AL AT W FG HD SO SE (moves M) (fun i => swap_move T g (swap_pair M i)) J _ _ stop s i0 s' C0 Q0 _ EI).
      - intros s2 i Hi. apply (at_move_lt M M2 s2 i Hi).
      - intros s2 i x Hi Lx. apply (ab_next_ok T g s2 i x M2 Hi Lx).
      - rewrite R0. destruct (Nat.eqb_spec (fb_numStopIt p) 0); [|exact KK]. rewrite moves_eq in KK by exact M2. nia. }
    destruct (Nat.eq_dec a b) as [->|NE]; [destruct SW as [EL SW]; apply SAME; [exact L1|intros v Hv; destruct (SW v Hv) as [[H1 H2]|H]; [destruct H1 as [H1|H1], H2 as [H2|H2]; congruence|exact H]|exact EL]|].
    destruct (Nat.lt_ge_cases a M) as [Ha|Ha]; [destruct (Nat.lt_ge_cases b M) as [Hb|Hb]|].
    + destruct (swap_pair_all M M2 a b Ha Hb NE) as (i & Hi & Ei). apply (ALL i Hi). rewrite Ei. apply swap_fused; assumption.
    + destruct SW as [EL SW]. apply SAME; [exact L1|intros v Hv|exact EL]. apply labeling_nth in L1. apply labeling_nth in Ly. destruct L1 as [N1 L1], Ly as [N2 L2]. assert (Hn : v < length (v_labels g)) by lia. pose proof (maxLabel_ge T g v Hn) as MX. fold M in MX. specialize (L1 v ltac:(lia)). specialize (L2 v ltac:(lia)). destruct (SW v Hv) as [[[H1|H1] [H2|H2]]|H]; lia.
    + destruct SW as [EL SW]. apply SAME; [exact L1|intros v Hv|exact EL]. apply labeling_nth in L1. apply labeling_nth in Ly. destruct L1 as [N1 L1], Ly as [N2 L2]. assert (Hn : v < length (v_labels g)) by lia. pose proof (maxLabel_ge T g v Hn) as MX. fold M in MX. specialize (L1 v ltac:(lia)). specialize (L2 v ltac:(lia)). destruct (SW v Hv) as [[[H1|H1] [H2|H2]]|H]; lia.
Qed.
End Fbi.
Print Assumptions C58_never_worse.
Print Assumptions C58_start.
Print Assumptions C58_alpha_expansion.
Print Assumptions C58_swap.

(** The generators propose labelings; UpDownGen and Random2Gen if every variable has at least two labels. *)
Theorem C58_generators (T : Type) (g : gmv T) rnd up : wf_gmv g ->
  proposes_labelings g (AlphaExpansionGen T g) /\ proposes_labelings g (AlphaBetaSwapGen T g) /\ proposes_labelings g (RandomGen T g rnd) /\
  (Forall (fun k => 2 <= k) (v_labels g) -> proposes_labelings g (UpDownGen T g up) /\ proposes_labelings g (Random2Gen T g rnd)).
Proof.
  intros W. split; [|split; [|split]].
  - exists (fun a : nat => a < pg_maxLabel T g \/ v_labels g = []). split.
    + destruct (v_labels g) as [|k l] eqn:EL; [right; reflexivity|left]. destruct W as [_ WP]. unfold positive in WP. rewrite EL in WP. inversion WP; subst. cbn. pose proof (maxLabel_ge T g 0 ltac:(rewrite EL; cbn; lia)) as MX. rewrite EL in MX. cbn [nth] in MX. lia.
    + intros a x [Ha|EL] Lx.
      * destruct (ae_next_ok T g a x Ha Lx) as (s1 & E1 & E2 & L1). exists s1. eexists. split; [exact E1|]. split; [|exact L1]. left. rewrite E2. destruct (Nat.eqb_spec (S a) (pg_maxLabel T g)); lia.
      * cbn [pg_next AlphaExpansionGen]. unfold ae_next. rewrite EL. cbn [length seq mapM bind]. eexists. eexists. split; [reflexivity|]. split; [right; reflexivity|]. apply labeling_nth. rewrite EL. split; [reflexivity|cbn; intros; lia].
  - destruct (Nat.lt_ge_cases (pg_maxLabel T g) 2) as [M2|M2].
    + exists (fun _ => True). split; [exact I|]. intros s x _ Lx. cbn [pg_next AlphaBetaSwapGen]. unfold ab_next. rewrite (proj2 (Nat.ltb_lt _ 2) M2). exists s, x. auto.
    + exists (fun s => exists i, at_move (pg_maxLabel T g) s i). split; [exists 0; apply at_move_init; exact M2|]. intros s x [i HJ] Lx. destruct (ab_next_ok T g s i x M2 HJ Lx) as (s1 & E1 & J1 & L1). exists s1. eexists. split; [exact E1|]. split; [eexists; exact J1|exact L1].
  - exists (fun _ => True). split; [exact I|]. intros s x _ _. destruct (rg_ok T g rnd s x W) as (y & E & L). eexists. exists y. split; [exact E|]. split; [exact I|exact L].
  - intros F. split.
    + exists (fun s : list nat * list bool => length (fst s) = length (v_labels g) /\ length (snd s) = length (v_labels g)). split; [cbn; rewrite repeat_length, map_length, seq_length; auto|]. intros s x [H1 H2] Lx. destruct (ud_ok T g x F Lx s H1 H2) as (s' & y & E & A1 & A2 & L & _). exists s', y. auto.
    + exists (fun _ => True). split; [exact I|]. intros s x _ _. destruct (r2_ok T g rnd s x F) as (y & E & L). eexists. exists y. split; [exact E|]. split; [exact I|exact L].
Qed.
Print Assumptions C58_generators.
(** UpDownGen changes every label by one. *)
Theorem C58_updown (T : Type) (g : gmv T) s x : Forall (fun k => 2 <= k) (v_labels g) -> labeling g x -> length (fst s) = length (v_labels g) -> length (snd s) = length (v_labels g) ->
  exists s' y, ud_next T g s x = Ret (s', y) /\ labeling g y /\ forall v, v < length (v_labels g) -> nth v y 0 = nth v x 0 + 1 \/ nth v y 0 + 1 = nth v x 0.
Proof. intros F L L1 L2. destruct (ud_ok T g x F L s L1 L2) as (s' & y & E & _ & _ & LY & H). exists s', y. auto. Qed.

(** *** Examples and refutations *)
Definition ex_solvers : hlsolvers Qc := mkHl qp_try_all (hqpbo_bsolver try_all) (hqpbo_bsolver try_all) (hqpbo_bsolver try_all).
Lemma minimizerQ_total : acc_total allQ MinimizerQ.
Proof. intros a b _ _ H1 H2. cbn in H1, H2. unfold Minimizer_bop in *. apply qlt_false in H1, H2. apply Qcle_antisym; assumption. Qed.
Lemma ex_solvers_ok kind : solvers_ok 10 ex_solvers kind /\ solvers_exact allQ AdderQ MinimizerQ 10 ex_solvers kind.
Proof.
  destruct (C57_hqpbo_solver try_all (proj1 C55_solver_exists)) as [R X]. specialize (X (proj2 C55_solver_exists)). split; [left; destruct kind; exact R|]. split; [destruct kind; exact X|exact C57_qp_exact_exists].
Qed.
Definition never_stop : nat -> bool := fun _ => false.
(** Expansion moves on three variables with three labels: infer ends because of the rounds without improvement. *)
Example C58_example : wf_gmv ex_fm /\ order_at_most 10 ex_fm /\ Forall (fb_legal ex_fm) [BStart [1; 1; 1]] /\
  exists s s', fb_run Qc AdderQ MinimizerQ ex_fm (AlphaExpansionGen Qc ex_fm) ex_solvers QpboFusion (mkFbParam 100 0) [BStart [1; 1; 1]] = Ret s /\
    fb_infer Qc AdderQ MinimizerQ ex_fm (AlphaExpansionGen Qc ex_fm) ex_solvers QpboFusion (mkFbParam 100 0) never_stop s = Ret (s', EndConverged) /\ fb_arg s = [1; 1; 1] /\ fb_arg s' <> fb_arg s.
Proof.
  split; [apply ex_fm_wf|]. split; [eapply Forall_impl; [|apply ex_fm_wf]; cbn; intros; lia|]. split; [repeat constructor|].
  destruct (fb_run Qc AdderQ MinimizerQ ex_fm (AlphaExpansionGen Qc ex_fm) ex_solvers QpboFusion (mkFbParam 100 0) [BStart [1; 1; 1]]) as [s| | |] eqn:R; [|vm_compute in R; discriminate R..].
  destruct (fb_infer Qc AdderQ MinimizerQ ex_fm (AlphaExpansionGen Qc ex_fm) ex_solvers QpboFusion (mkFbParam 100 0) never_stop s) as [[s' e]| | |] eqn:Q; [|vm_compute in R; injection R as <-; vm_compute in Q; discriminate Q..].
  exists s, s'. assert (X : e = EndConverged /\ fb_arg s = [1; 1; 1] /\ fb_arg s' <> fb_arg s); [|destruct X as (-> & X1 & X2); auto]. vm_compute in R. injection R as <-. vm_compute in Q. injection Q as <- <-. split; [reflexivity|]. split; [reflexivity|]. vm_compute. discriminate.
Qed.
(** Swaps with k(k-1) = 6 rounds. *)
Definition ex_unary3 : gmv Qc := mkGmv [3] [([0], fun l => match l with [0] => Q2Qc 5 | [1] => Q2Qc 0 | _ => Q2Qc 1 end)].
Lemma ex_unary3_wf : wf_gmv ex_unary3 /\ order_at_most 10 ex_unary3.
Proof. split; [split|]; repeat constructor; cbn; lia. Qed.
Example C58_swap_example : exists s s', fb_run Qc AdderQ MinimizerQ ex_unary3 (AlphaBetaSwapGen Qc ex_unary3) ex_solvers QpboFusion (mkFbParam 100 6) [BStart [2]] = Ret s /\
    fb_infer Qc AdderQ MinimizerQ ex_unary3 (AlphaBetaSwapGen Qc ex_unary3) ex_solvers QpboFusion (mkFbParam 100 6) never_stop s = Ret (s', EndConverged) /\ fb_arg s = [2] /\ fb_arg s' = [1].
Proof.
  destruct (fb_run Qc AdderQ MinimizerQ ex_unary3 (AlphaBetaSwapGen Qc ex_unary3) ex_solvers QpboFusion (mkFbParam 100 6) [BStart [2]]) as [s| | |] eqn:R; [|vm_compute in R; discriminate R..].
  destruct (fb_infer Qc AdderQ MinimizerQ ex_unary3 (AlphaBetaSwapGen Qc ex_unary3) ex_solvers QpboFusion (mkFbParam 100 6) never_stop s) as [[s' e]| | |] eqn:Q; [|vm_compute in R; injection R as <-; vm_compute in Q; discriminate Q..].
  exists s, s'. assert (X : e = EndConverged /\ fb_arg s = [2] /\ fb_arg s' = [1]); [|destruct X as (-> & X1 & X2); auto]. vm_compute in R. injection R as <-. vm_compute in Q. injection Q as <- <-. auto.
Qed.
(** With the default number of rounds, k(k-1)/2, the pairs {0,1} and {0,2} are tried, the first of them twice, but not {1,2}. *)
Theorem C58_swap_default_refuted : ~ (forall (g : gmv Qc) ops s s', wf_gmv g -> order_at_most 10 g -> Forall (fb_legal g) ops ->
  fb_run Qc AdderQ MinimizerQ g (AlphaBetaSwapGen Qc g) ex_solvers QpboFusion (mkFbParam 100 0) ops = Ret s -> fb_infer Qc AdderQ MinimizerQ g (AlphaBetaSwapGen Qc g) ex_solvers QpboFusion (mkFbParam 100 0) never_stop s = Ret (s', EndConverged) ->
  forall a b y, labeling g y -> swap_of a b (fb_arg s') y -> as_good AdderQ MinimizerQ g (fb_arg s') y).
Proof.
  intros H.
  destruct (fb_run Qc AdderQ MinimizerQ ex_unary3 (AlphaBetaSwapGen Qc ex_unary3) ex_solvers QpboFusion (mkFbParam 100 0) [BStart [2]]) as [s| | |] eqn:R; [|vm_compute in R; discriminate R..].
  destruct (fb_infer Qc AdderQ MinimizerQ ex_unary3 (AlphaBetaSwapGen Qc ex_unary3) ex_solvers QpboFusion (mkFbParam 100 0) never_stop s) as [[s' e]| | |] eqn:Q; [|vm_compute in R; injection R as <-; vm_compute in Q; discriminate Q..].
  assert (X : e = EndConverged /\ fb_arg s' = [2]) by (vm_compute in R; injection R as <-; vm_compute in Q; injection Q as <- <-; auto). destruct X as [-> X].
  specialize (H ex_unary3 [BStart [2]] s s' (proj1 ex_unary3_wf) (proj2 ex_unary3_wf) ltac:(repeat constructor) R Q 1 2 [1] ltac:(repeat constructor)). rewrite X in H.
  assert (SW : swap_of 1 2 [2] [1]) by (split; [reflexivity|]; intros [|v]; cbn; intros; [left; auto|lia]). specialize (H SW). vm_compute in H. discriminate H.
Qed.
(** UpDownGen and Random2Gen propose labels that do not exist if a variable has one label. *)
Definition ex_one : gmv Qc := mkGmv [1; 2] [([0; 1], fun l => match l with [_; 0] => 0%Qc | _ => 1%Qc end)].
Theorem C58_one_label_refuted : ~ (forall (g : gmv Qc) up, wf_gmv g -> proposes_labelings g (UpDownGen Qc g up)) /\ ~ (forall (g : gmv Qc) rnd, wf_gmv g -> proposes_labelings g (Random2Gen Qc g rnd)) /\
  wf_gmv ex_one /\ exists s, fb_run Qc AdderQ MinimizerQ ex_one (UpDownGen Qc ex_one (fun _ => true)) ex_solvers QpboFusion (mkFbParam 100 0) [] = Ret s /\
    fb_infer Qc AdderQ MinimizerQ ex_one (UpDownGen Qc ex_one (fun _ => true)) ex_solvers QpboFusion (mkFbParam 100 0) never_stop s = Undef.
Proof.
  assert (W : wf_gmv ex_one) by (split; repeat constructor; cbn; lia). split; [|split; [|split; [exact W|]]].
  - intros H. destruct (H ex_one (fun _ => true) W) as (J & I0 & IN). destruct (IN _ [0; 0] I0 ltac:(repeat constructor)) as (s' & y & E & _ & L). vm_compute in E. injection E as <- <-. apply labeling_nth in L. destruct L as [_ L]. specialize (L 0 ltac:(cbn; lia)). cbn in L. lia.
  - intros H. destruct (H ex_one (fun _ => 1) W) as (J & I0 & IN). destruct (IN _ [0; 0] I0 ltac:(repeat constructor)) as (s' & y & E & _ & L). vm_compute in E. injection E as <- <-. apply labeling_nth in L. destruct L as [_ L]. specialize (L 0 ltac:(cbn; lia)). cbn in L. lia.
  - destruct (fb_run Qc AdderQ MinimizerQ ex_one (UpDownGen Qc ex_one (fun _ => true)) ex_solvers QpboFusion (mkFbParam 100 0) []) as [s| | |] eqn:R; [|vm_compute in R; discriminate R..]. exists s. split; [reflexivity|]. vm_compute in R. injection R as <-. vm_compute. reflexivity.
Qed.
(** A solver that reports UNKNOWN: value() is not the value of arg(). *)
Definition unknown_solvers : hlsolvers Qc := mkHl qp_try_all (fun _ _ => Ret None) (fun _ _ => Ret None) (fun _ _ => Ret None).
Theorem C58_unknown_refuted : ~ (forall (g : gmv Qc) s s' e kind, wf_gmv g -> order_at_most 10 g -> fb_run Qc AdderQ MinimizerQ g (AlphaExpansionGen Qc g) unknown_solvers kind (mkFbParam 100 0) [BStart [2]] = Ret s ->
  fb_infer Qc AdderQ MinimizerQ g (AlphaExpansionGen Qc g) unknown_solvers kind (mkFbParam 100 0) never_stop s = Ret (s', e) -> fb_value s' = total AdderQ g (fb_arg s')).
Proof.
  intros H.
  destruct (fb_run Qc AdderQ MinimizerQ ex_unary3 (AlphaExpansionGen Qc ex_unary3) unknown_solvers LazyFlipperFusion (mkFbParam 100 0) [BStart [2]]) as [s| | |] eqn:R; [|vm_compute in R; discriminate R..].
  destruct (fb_infer Qc AdderQ MinimizerQ ex_unary3 (AlphaExpansionGen Qc ex_unary3) unknown_solvers LazyFlipperFusion (mkFbParam 100 0) never_stop s) as [[s' e]| | |] eqn:Q; [|vm_compute in R; injection R as <-; vm_compute in Q; discriminate Q..].
  specialize (H ex_unary3 s s' e LazyFlipperFusion (proj1 ex_unary3_wf) (proj2 ex_unary3_wf) R Q). vm_compute in R. injection R as <-. vm_compute in Q. injection Q as <- <-. vm_compute in H. discriminate H.
Qed.
(** Several unary factors of a variable: the default start only looks at the last one. *)
Definition ex_two_unaries : gmv Qc := mkGmv [2] [([0], fun l => match l with [0] => 0%Qc | _ => Q2Qc 9 end); ([0], fun l => match l with [0] => 1%Qc | _ => 0%Qc end)].
Definition MinimizerQ9 : accum Qc := Minimizer Qc qlt (Q2Qc 1000) 0%Qc.
Theorem C58_start_last_refuted : ~ (forall (g : gmv Qc) s, wf_gmv g -> order_at_most 1 g -> fb_new Qc AdderQ MinimizerQ9 g (AlphaExpansionGen Qc g) (mkFbParam 100 0) = Ret s -> optimal AdderQ MinimizerQ9 g (fb_arg s)).
Proof.
  intros H. destruct (fb_new Qc AdderQ MinimizerQ9 ex_two_unaries (AlphaExpansionGen Qc ex_two_unaries) (mkFbParam 100 0)) as [s| | |] eqn:R; [|vm_compute in R; discriminate R..].
  destruct (H ex_two_unaries s ltac:(split; repeat constructor; cbn; lia) ltac:(repeat constructor) R) as [_ B]. specialize (B [0] ltac:(repeat constructor)). vm_compute in R. injection R as <-. vm_compute in B. discriminate B.
Qed.
