(** C01, C02: opengm::Partition. *)
From Coq Require Import Relations Sorted.
From Verif Require Import Base PartitionModel PartitionProofs.

(** ** Specification (independent of the union-find representation)

    The abstract content of a Partition after a history of calls is the number of
    elements and the list of merged pairs since the last reset. *)
Fixpoint spec_elements (n : nat) (ops : list part_op) : nat :=
  match ops with
  | [] => n
  | PReset m :: t => spec_elements m t
  | PInsert k :: t => spec_elements (n + k) t
  | _ :: t => spec_elements n t
  end.

Fixpoint spec_merges (acc : list (nat * nat)) (ops : list part_op) : list (nat * nat) :=
  match ops with
  | [] => acc
  | PReset _ :: t => spec_merges [] t
  | PMerge a b :: t => spec_merges ((a, b) :: acc) t
  | _ :: t => spec_merges acc t
  end.

(** Two elements are in the same set iff they are related by the equivalence closure
    of the merged pairs. *)
Definition same_set (ops : list part_op) : nat -> nat -> Prop :=
  clos_refl_sym_trans nat (fun a b => In (a, b) (spec_merges [] ops)).

(** Legal histories: every index passed is below numberOfElements() at that moment. *)
Fixpoint legal (n : nat) (ops : list part_op) : Prop :=
  match ops with
  | [] => True
  | PReset m :: t => legal m t
  | PInsert k :: t => legal (n + k) t
  | PMerge a b :: t => a < n /\ b < n /\ legal n t
  | PFind a :: t => a < n /\ legal n t
  end.

Lemma spec_bridge : forall ops n acc,
  fold_left spec_size_pairs_step ops (n, acc) = (spec_elements n ops, spec_merges acc ops).
Proof. induction ops as [|o ops IH]; intros n acc; [reflexivity|]. destruct o; simpl; apply IH. Qed.

Lemma legal_bridge : forall ops n, legal n ops -> part_valid n ops.
Proof. induction ops as [|o ops IH]; intros n H; [exact I|]. destruct o; simpl in *; intuition. Qed.

(** ** Theorems *)

(** C01: after any legal history, without out-of-bounds access and with termination, both
    overloads of find agree, return a member of the class, and identify exactly the
    connected elements. *)
Theorem C01_find_iff_connected : forall n ops, legal n ops ->
  exists p, part_run n ops = Ret p /\
   forall a b, a < numberOfElements p -> b < numberOfElements p ->
     exists pa ra pb rb,
       part_find_const p a = Ret ra /\ part_find p a = Ret (pa, ra) /\
       part_find_const p b = Ret rb /\ part_find p b = Ret (pb, rb) /\
       same_set ops a ra /\ ra < numberOfElements p /\
       (ra = rb <-> same_set ops a b).
Proof.
  intros n ops H. pose proof (C01_main n ops (legal_bridge _ _ H)) as G.
  rewrite spec_bridge in G. exact G.
Qed.
Print Assumptions C01_find_iff_connected.

(** C01, "queries do not change any later answer": dropping every find() call from a history
    leaves every later observation literally unchanged. *)
Theorem C01_queries_are_pure : forall n ops p, legal n ops -> part_run n ops = Ret p ->
  exists q, part_run n (filter (fun o => match o with PFind _ => false | _ => true end) ops) = Ret q /\
    numberOfElements q = numberOfElements p /\ numberOfSets q = numberOfSets p /\
    forall a, a < numberOfElements p -> part_find_const q a = part_find_const p a.
Proof.
  intros n ops p H E. destruct (run_strip n ops p (legal_bridge _ _ H) E) as [q [E' G]].
  exists q. split; auto. rewrite <- E'. f_equal. apply filter_ext. intros []; reflexivity.
Qed.
Print Assumptions C01_queries_are_pure.

(** C02: counts and labelings. *)
Theorem C02_counts_and_labelings : forall n ops, legal n ops ->
  exists p reps rl labels,
    part_run n ops = Ret p /\
    part_representatives p = Ret reps /\
    part_representativeLabeling p = Ret rl /\
    part_elementLabeling p = Ret labels /\
    numberOfElements p = spec_elements n ops /\
    numberOfSets p = length reps /\
    StronglySorted lt reps /\
    (forall r, In r reps -> r < spec_elements n ops) /\
    (forall a, a < spec_elements n ops -> exists! r, In r reps /\ same_set ops a r) /\
    (forall j r, nth_error reps j = Some r -> map_at rl r = j) /\
    (forall r, In r (map fst rl) <-> In r reps) /\
    length labels = spec_elements n ops /\
    (forall a la, nth_error labels a = Some la -> la < numberOfSets p) /\
    (forall a b la lb, nth_error labels a = Some la -> nth_error labels b = Some lb ->
       (la = lb <-> same_set ops a b)).
Proof.
  intros n ops H. pose proof (C02_main n ops (legal_bridge _ _ H)) as G.
  rewrite spec_bridge in G. exact G.
Qed.
Print Assumptions C02_counts_and_labelings.

(** Non-vacuity: a history exercising every operation. *)
Example partition_history : list part_op :=
  [PMerge 0 1; PInsert 2; PMerge 3 4; PFind 4; PMerge 4 1; PReset 5; PMerge 2 3; PMerge 3 2; PInsert 1; PMerge 5 2].
Example partition_history_legal : legal 3 partition_history.
Proof. repeat (split; [repeat constructor|]). repeat constructor. Qed.
Example partition_history_runs :
  exists p, part_run 3 partition_history = Ret p /\ part_elementLabeling p = Ret [0;1;2;2;3;2] /\ numberOfSets p = 4.
Proof. eexists. split; [vm_compute; reflexivity|]. split; vm_compute; reflexivity. Qed.
