(** C03: opengm::disjoint_set. *)
From Coq Require Import Relations Sorted.
From Verif Require Import Base PartitionModel DisjointSetModel DisjointSetProofs.

(** ** Specification *)
Fixpoint joins (acc : list (nat * nat)) (ops : list ds_op) : list (nat * nat) :=
  match ops with
  | [] => acc
  | DJoin a b :: t => joins ((a, b) :: acc) t
  | _ :: t => joins acc t
  end.

Definition joined (ops : list ds_op) : nat -> nat -> Prop :=
  clos_refl_sym_trans nat (fun a b => In (a, b) (joins [] ops)).

Fixpoint ds_legal (n : nat) (ops : list ds_op) : Prop :=
  match ops with
  | [] => True
  | DJoin a b :: t => a < n /\ b < n /\ ds_legal n t
  | DFind a :: t => a < n /\ ds_legal n t
  | DSize a :: t => a < n /\ ds_legal n t
  | DLabeling :: t => ds_legal n t
  end.

(** C03: find identifies exactly the joined elements, size(a) is the number of elements joined
    with a, numberOfSets() is the number of classes and representativeLabeling numbers one
    representative per class, from 0, in ascending order. *)
Theorem C03_disjoint_set : forall n ops, ds_legal n ops ->
  exists d, ds_run n ops = Ret d /\
  (forall a b, a < n -> b < n -> exists da ra db rb,
     ds_find d a = Ret (da, ra) /\ ds_find d b = Ret (db, rb) /\
     joined ops a ra /\ ra < n /\ (ra = rb <-> joined ops a b)) /\
  (forall a, a < n -> exists d' k members, ds_sizeOf d a = Ret (d', k) /\
     NoDup members /\ length members = k /\ forall z, In z members <-> z < n /\ joined ops a z) /\
  exists d' m reps, ds_representativeLabeling d = Ret (d', m) /\
     ds_numberOfSets d = length reps /\ StronglySorted lt reps /\
     (forall r, In r reps -> r < n) /\
     (forall a, a < n -> exists! r, In r reps /\ joined ops a r) /\
     (forall j r, nth_error reps j = Some r -> map_at m r = j) /\
     (forall r, In r (map fst m) <-> In r reps).
Proof. exact C03_main. Qed.
Print Assumptions C03_disjoint_set.

Example ds_history : list ds_op := [DJoin 0 1; DJoin 2 3; DSize 3; DJoin 3 1; DFind 0; DLabeling; DJoin 0 2].
Example ds_history_legal : ds_legal 5 ds_history.
Proof. repeat (split; [repeat constructor|]). repeat constructor. Qed.
Example ds_history_runs :
  exists d d', ds_run 5 ds_history = Ret d /\ ds_numberOfSets d = 2 /\ ds_sizeOf d 0 = Ret (d', 4).
Proof. eexists. eexists. split; [vm_compute; reflexivity|]. split; vm_compute; reflexivity. Qed.
