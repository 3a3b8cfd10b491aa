(** C15: the value a Movemaker reports is the value of its labeling; C16: optimal moves are optimal.

    [OP] is the operation of the model and [ACC] the accumulation; the laws they need (GmViewSpec.v) hold
    for finite numbers with Adder, Minimizer and Maximizer and for positive rationals with Multiplier and
    Maximizer (GmViewProps.v).  [mult] and [recompute] are the compile-time switches for Multiplier. *)
From Verif Require Import Base Values GmView GmViewSpec ShapeSpec ShapeProofs GmViewProofs OperationsModel
  MovemakerModel MovemakerSpec MovemakerProofs MovemakerSearch GmViewProps.
From Coq Require Import Sorted.

Section Props.
Variable T : Type.
Variable OP : oper T.
Variable mult : bool.
Variable recompute : T -> bool.
Variable ACC : accum T.
Variable fin : T -> Prop.
Hypothesis OL : op_laws fin OP.
Hypothesis AL : acc_laws fin OP ACC.
Variable g : gmv T.
Hypothesis W : wf_gmv g.
Hypothesis FG : fin_gmv fin g.

(** A Movemaker after construction, at the all-zero labeling or at a given one, and some calls. *)
Definition mrun (fuel : nat) (start : option (list nat)) (ops : list mop) : outcome (mm T) :=
  m <- match start with None => mm_new T OP g | Some x => mm_new_at T OP g x end ;;
  foldM (mstep T OP mult recompute ACC fuel g) ops m.
Definition start_ok (start : option (list nat)) : Prop := match start with None => True | Some x => labeling g x end.

Lemma mrun_ok : forall fuel start ops, rounds g <= fuel -> start_ok start -> Forall (mlegal g) ops ->
  exists m, mrun fuel start ops = Ret m /\ mm_ok T OP g m.
Proof.
  intros fuel start ops Hf HS HO. unfold mrun. destruct start as [x|].
  - destruct (mm_new_at_ok T OP g W x HS) as (m & E & O & _). rewrite E. cbn [bind]. apply (mhistory_ok T OP mult recompute ACC fin OL AL g W FG); auto.
  - destruct (mm_new_ok T OP g W) as (m & E & O & _). rewrite E. cbn [bind]. apply (mhistory_ok T OP mult recompute ACC fin OL AL g W FG); auto.
Qed.

(** After any history of calls the state is a labeling, value() is its value, and both valueAfterMove and
    move predict exactly the value of the relabeled state; valueAfterMove changes nothing (not even the
    buffer), move arrives at the relabeled state. *)
Theorem C15_value : forall fuel start ops, rounds g <= fuel -> start_ok start -> Forall (mlegal g) ops ->
  exists m, mrun fuel start ops = Ret m /\
    labeling g (mm_state m) /\ mm_value m = total OP g (mm_state m) /\ v_evaluate T OP g (mm_state m) = Ret (mm_value m) /\
    forall vars dest, distinct_vars g vars -> in_shape (labels_of g vars) dest ->
      valueAfterMove T OP mult g m vars dest = Ret (m, total OP g (relabel (mm_state m) vars dest)) /\
      exists m', move T OP mult g m vars dest = Ret (m', total OP g (relabel (mm_state m) vars dest)) /\
        mm_state m' = relabel (mm_state m) vars dest /\ mm_value m' = total OP g (mm_state m').
Proof.
  intros fuel start ops Hf HS HO. destruct (mrun_ok fuel start ops Hf HS HO) as (m & E & O). exists m. split; auto.
  pose proof O as (HF & L & HB & HE). split; auto. split; [exact HE|]. split.
  - rewrite (v_evaluate_total T OP g) by (auto; apply labeling_length; auto). unfold mm_value. rewrite HE. auto.
  - intros vars dest DV HD. split; [apply (valueAfterMove_ok T OP mult fin OL g W FG); auto|].
    eexists. split; [apply (move_ok T OP mult fin OL g W FG); auto|]. auto.
Qed.

(** What relabeling means: the listed variables get the listed labels, the others keep theirs. *)
Theorem C15_relabel : forall x vars dest, NoDup vars -> Forall (fun v => v < length x) vars -> length dest = length vars ->
  length (relabel x vars dest) = length x /\
  (forall i v d, nth_error vars i = Some v -> nth_error dest i = Some d -> nth v (relabel x vars dest) 0 = d) /\
  (forall v, ~ In v vars -> nth v (relabel x vars dest) 0 = nth v x 0).
Proof.
  intros x vars dest ND HB HL. split; [apply relabel_length|]. split; [|intros; apply relabel_off; auto].
  intros i v d Ev Ed. pose proof (relabel_at vars dest x ND HB HL) as E. rewrite <- E in Ed.
  rewrite nth_error_map, Ev in Ed. cbn in Ed. congruence.
Qed.

(** initialize and reset. *)
Theorem C15_initialize : forall fuel start ops, rounds g <= fuel -> start_ok start -> Forall (mlegal g) ops ->
  exists m, mrun fuel start ops = Ret m /\
   (forall x, labeling g x -> exists m', mm_initialize T OP g m x = Ret m' /\ mm_state m' = x /\ mm_value m' = total OP g x) /\
   (exists m', mm_reset T OP g m = Ret m' /\ mm_state m' = repeat 0 (length (v_labels g)) /\ mm_value m' = total OP g (mm_state m')).
Proof.
  intros fuel start ops Hf HS HO. destruct (mrun_ok fuel start ops Hf HS HO) as (m & E & O). exists m. split; auto. split.
  - intros x Lx. destruct (mm_initialize_ok T OP g W m x O Lx) as (m' & E' & O' & S'). exists m'. split; auto. split; auto. rewrite <- S'. apply O'.
  - destruct (mm_reset_ok T OP g W m O) as (m' & E' & O' & S'). exists m'. split; auto. split; auto. apply O'.
Qed.

(** moveOptimally: the new state is a joint relabeling of the listed variables that no other joint relabeling
    beats, its value is returned and reported, and the state changes only if that is an improvement. *)
Theorem C16_moveOptimally : forall fuel start ops vars, rounds g <= fuel -> start_ok start -> Forall (mlegal g) ops ->
  distinct_vars g vars -> vars <> [] ->
  exists m m', mrun fuel start ops = Ret m /\ moveOptimally T OP recompute ACC fuel g m vars = Ret (m', mm_value m') /\
    mm_value m' = total OP g (mm_state m') /\
    (forall c, in_shape (labels_of g vars) c -> a_bop ACC (total OP g (relabel (mm_state m) vars c)) (mm_value m') = false) /\
    (mm_state m' = mm_state m \/
     exists c, in_shape (labels_of g vars) c /\ mm_state m' = relabel (mm_state m) vars c /\ a_bop ACC (mm_value m') (mm_value m) = true).
Proof.
  intros fuel start ops vars Hf HS HO DV NE. destruct (mrun_ok fuel start ops Hf HS HO) as (m & E & O). exists m.
  destruct (moveOptimally_ok T OP recompute ACC fin OL AL g W FG m vars fuel O DV NE) as (m' & E' & O' & H1 & H2).
  { pose proof (labels_of_size T g W vars DV). lia. }
  exists m'. split; auto. split; auto. unfold mm_value. destruct O' as (_ & _ & _ & HE). destruct O as (_ & _ & _ & HE0).
  rewrite HE, HE0. auto.
Qed.

(** moveOptimallyWithAllLabelsChanging: the same, among the relabelings that change every listed variable. *)
Theorem C16_moveAllChanging : forall fuel start ops vars, rounds g <= fuel -> start_ok start -> Forall (mlegal g) ops ->
  distinct_vars g vars -> vars <> [] -> Forall (fun n => 2 <= n) (labels_of g vars) ->
  exists m m', mrun fuel start ops = Ret m /\ moveOptimallyWithAllLabelsChanging T OP recompute ACC fuel g m vars = Ret (m', mm_value m') /\
    mm_value m' = total OP g (mm_state m') /\
    (forall c, in_shape (labels_of g vars) c -> Forall2 (fun b v => b <> nth v (mm_state m) 0) c vars ->
       a_bop ACC (total OP g (relabel (mm_state m) vars c)) (mm_value m') = false) /\
    (mm_state m' = mm_state m \/
     exists c, in_shape (labels_of g vars) c /\ Forall2 (fun b v => b <> nth v (mm_state m) 0) c vars /\
       mm_state m' = relabel (mm_state m) vars c /\ a_bop ACC (mm_value m') (mm_value m) = true).
Proof.
  intros fuel start ops vars Hf HS HO DV NE H2. destruct (mrun_ok fuel start ops Hf HS HO) as (m & E & O). exists m.
  destruct (moveAllChanging_ok T OP recompute ACC fin OL AL g W FG m vars fuel O DV NE H2) as (m' & E' & O' & H1 & H3).
  { pose proof (labels_of_size T g W vars DV). lia. }
  exists m'. split; auto. split; auto. unfold mm_value. destruct O' as (_ & _ & _ & HE). destruct O as (_ & _ & _ & HE0).
  rewrite HE, HE0. auto.
Qed.
End Props.
Print Assumptions C15_value.
Print Assumptions C15_relabel.
Print Assumptions C15_initialize.
Print Assumptions C16_moveOptimally.
Print Assumptions C16_moveAllChanging.

(** ** A case that meets the hypotheses: three variables with 2, 3 and 2 labels *)
Definition ex_t (a b : nat) : ext := Fin (Z.of_nat ((a * 5 + b * 3) mod 7) - 2).
Definition ex_g : gmv ext := mkGmv [2; 3; 2]
  [ ([0; 1], fun l => ex_t (nth 0 l 0) (nth 1 l 0)); ([1; 2], fun l => ex_t (nth 1 l 0) (nth 0 l 0));
    ([1], fun l => Fin (Z.of_nat (nth 0 l 0))); ([], fun _ => Fin 4); ([0; 1; 2], fun l => Fin (- Z.of_nat (fold_right Nat.mul 1 l))) ].
Lemma ex_wf : wf_gmv ex_g.
Proof. split; cbn; repeat constructor; cbn; lia. Qed.
Lemma ex_fin : fin_gmv finite ex_g.
Proof. repeat constructor; intros; eexists; reflexivity. Qed.

Example C15_case : let m := mrun ext AdderE false (fun _ => false) MinimizerE ex_g 12 (Some [1; 2; 0])
    [MMove [2; 0] [1; 0]; MValueAfterMove [1] [1]; MMoveOptimally [1]; MMoveAllChanging [2; 0]] in
  Forall (mlegal ex_g) [MMove [2; 0] [1; 0]; MValueAfterMove [1] [1]; MMoveOptimally [1]; MMoveAllChanging [2; 0]] /\
  start_ok ext ex_g (Some [1; 2; 0]) /\
  (x <- m ;; Ret (mm_state x, mm_value x)) = Ret ([0; 0; 1], Fin 5) /\ rounds ex_g = 12.
Proof.
  split; [|split; [|split]].
  - repeat constructor; cbn; try lia; try (intros []; fail); try discriminate; intuition (try discriminate; try lia).
  - repeat constructor.
  - vm_compute. reflexivity.
  - reflexivity.
Qed.
Example C16_case : (m <- mrun ext AdderE false (fun _ => false) MinimizerE ex_g 12 (Some [1; 0; 0]) [] ;;
    r <- moveOptimally ext AdderE (fun _ => false) MinimizerE 12 ex_g m [2; 1] ;; Ret (mm_state (fst r), snd r)) = Ret ([1; 1; 1], Fin 2).
Proof. vm_compute. reflexivity. Qed.

(** ** Refutations *)
Section Refuted.
Let run := mrun ext AdderE false (fun _ => false) MinimizerE.

(** The early return of moveOptimallyWithAllLabelsChanging for a variable with one label (movemaker.hxx 498-503)
    restores the wrong entries of the buffer; the next move reports a wrong value.  (Two binary variables and one
    with a single label, one factor that is 7 where the first two differ.) *)
Definition one_label_g : gmv ext := mkGmv [2; 2; 1] [ ([0; 1], fun l => if nth 0 l 0 =? nth 1 l 0 then Fin 0 else Fin 7) ].
Theorem C15_early_return_refuted : exists (g : gmv ext) ops m, wf_gmv g /\ fin_gmv finite g /\
  ops = [MMoveAllChanging [1; 2]; MMove [0] [1]] /\ distinct_vars g [1; 2] /\ mlegal g (MMove [0] [1]) /\
  run g 4 None ops = Ret m /\ mm_state m = [1; 0; 0] /\ mm_value m = Fin 0 /\ total AdderE g (mm_state m) = Fin 7.
Proof.
  exists one_label_g. eexists. eexists. split; [|split; [|split; [reflexivity|split; [|split; [|split; [vm_compute; reflexivity|]]]]]].
  - split; cbn; repeat constructor; cbn; lia.
  - repeat constructor. intros x _. cbn. destruct (_ =? _); eexists; reflexivity.
  - split; repeat constructor; cbn; intuition lia.
  - split; [split|]; repeat constructor; cbn; intuition lia.
  - split; [|split]; reflexivity.
Qed.

(** A variable listed twice: the value reported is that of another labeling. *)
Definition unary_g : gmv ext := mkGmv [2] [ ([0], fun l => Fin (3 * Z.of_nat (nth 0 l 0))) ].
Theorem C15_duplicate_refuted : exists (g : gmv ext) m, wf_gmv g /\ fin_gmv finite g /\
  run g 2 None [MMove [0; 0] [1; 0]] = Ret m /\ mm_value m <> total AdderE g (mm_state m).
Proof.
  exists unary_g. eexists. split; [|split; [|split; [vm_compute; reflexivity|]]].
  - split; cbn; repeat constructor; cbn; lia.
  - repeat constructor. intros x _. eexists. reflexivity.
  - vm_compute. discriminate.
Qed.

(** Leaving a labeling of infinite value gives "not a number". *)
Definition inf_g : gmv ext := mkGmv [2] [ ([0], fun l => if nth 0 l 0 =? 0 then PInf else Fin 1) ].
Theorem C15_infinite_refuted : exists (g : gmv ext) m, wf_gmv g /\ mlegal g (MMove [0] [1]) /\
  run g 2 None [MMove [0] [1]] = Ret m /\ mm_value m = NaN /\ total AdderE g (mm_state m) = Fin 1.
Proof.
  exists inf_g. eexists. split; [|split; [|split; [vm_compute; reflexivity|split; reflexivity]]].
  - split; cbn; repeat constructor; cbn; lia.
  - split; [split|]; repeat constructor; cbn; intuition lia.
Qed.

(** An optimal move of no variables never returns. *)
Theorem C16_empty_refuted : forall (g : gmv ext) m fuel, wf_gmv g -> fin_gmv finite g -> mm_ok ext AdderE g m ->
  moveOptimally ext AdderE (fun _ => false) MinimizerE fuel g m [] = Diverge.
Proof.
  intros g m fuel W F O. unfold moveOptimally. cbn [factorsToRecompute foldM bind length repeat].
  cbn [evaluateFactors foldM bind].
  assert (G : forall fuel buf best bs next first, search ext AdderE MinimizerE fuel g [] [] next first buf best bs = Diverge).
  { induction fuel0 as [|fuel0 IH]; intros; auto. cbn [search evaluateFactors foldM bind mapM incr_state].
    destruct (a_bop MinimizerE (o_neutral AdderE) best); cbn [bind]; apply IH. }
  rewrite G. auto.
Qed.
End Refuted.
Print Assumptions C15_early_return_refuted.
Print Assumptions C15_duplicate_refuted.
Print Assumptions C15_infinite_refuted.
Print Assumptions C16_empty_refuted.
