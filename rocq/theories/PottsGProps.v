(** C08: generalized Potts functions. *)
From Coq Require Import NArith.
From Verif Require Import Base PartitionsModel PartitionsSpec PartitionsProofs PottsGModel PottsGProofs.

(** For every well-formed function (order n <= 11, one value per partition), whatever happened
    before to the shared table: evaluation never fails and gives a value that depends on the
    induced partition only; setByLabel changes exactly the labelings inducing the same partition;
    isPotts() holds iff all labelings that are not all-equal have one common value. *)
Theorem C08_pottsg : forall (T : Type) (zero : T) (eqb : T -> T -> bool),
  (forall a b, eqb a b = true <-> a = b) ->
  forall f, pg_wf T f -> let n := length (pg_shape f) in
  exists value : list nat -> T,
    (forall t l, parts_reachable t -> length l = n ->
       exists t', pg_eval T zero t f l = Ret (t', value l) /\ parts_reachable t') /\
    (forall l l', length l = n -> same_partition l l' -> value l = value l') /\
    (forall t l v, parts_reachable t -> length l = n ->
       exists t' f', pg_setByLabel T t f l v = Ret (t', f') /\ parts_reachable t' /\ pg_wf T f' /\
       pg_shape f' = pg_shape f /\
       forall t2 l2, parts_reachable t2 -> length l2 = n ->
         exists t3 v3, pg_eval T zero t2 f' l2 = Ret (t3, v3) /\
           (same_partition l l2 -> v3 = v) /\ (~ same_partition l l2 -> v3 = value l2)) /\
    (exists b, pg_isPotts T eqb f = Ret b /\
       (b = true <-> exists c, forall l, length l = n -> ~ all_equal l -> value l = c)).
Proof. exact C08_main. Qed.
Print Assumptions C08_pottsg.

(** In particular an injective renaming of the labels does not change the value. *)
Theorem C08_relabeling : forall (T : Type) (zero : T) f g t t2 l,
  pg_wf T f -> parts_reachable t -> parts_reachable t2 -> length l = length (pg_shape f) ->
  (forall a b, In a l -> In b l -> g a = g b -> a = b) ->
  exists t' t2' v, pg_eval T zero t f l = Ret (t', v) /\ pg_eval T zero t2 f (map g l) = Ret (t2', v).
Proof.
  intros T zero f g t t2 l Hwf Hr Hr2 L Hg.
  destruct (pg_index _ (proj1 Hwf)) as [idx [I1 [I2 [_ [I4 _]]]]].
  assert (HS : same_partition l (map g l)).
  { split; [rewrite map_length; auto|]. intros i j Hi Hj.
    rewrite !(nth_indep (map g l) 0 (g 0)) by (rewrite map_length; auto). rewrite !map_nth.
    split; [congruence|]. apply Hg; apply nth_In; auto. }
  assert (L2 : length (map g l) = length (pg_shape f)) by (rewrite map_length; auto).
  destruct (I1 t l Hr L) as [t' [E1 _]]. destruct (I1 t2 _ Hr2 L2) as [t2' [E2 _]].
  assert (Hk : idx l < length (pg_values f)).
  { specialize (I2 l L). rewrite <- (wf_cnt T f Hwf) in I2. Lia.lia. }
  exists t', t2', (nth (idx l) (pg_values f) zero). split.
  - apply (pg_eval_pos T zero t f l t' (idx l)); auto. apply nth_error_nth'. auto.
  - apply I4 in HS; auto. rewrite <- HS in E2.
    apply (pg_eval_pos T zero t2 f _ t2' (idx l)); auto. apply nth_error_nth'. auto.
Qed.
Print Assumptions C08_relabeling.

(** Constructing from a shape gives a well-formed function of constant value zero, and
    serialization followed by deserialization is the identity, from any state of the table. *)
Theorem C08_construct_and_roundtrip : forall (T : Type) (zero : T) t, parts_reachable t ->
  (forall shape, length shape <= 11 ->
     exists t' f, pg_init T zero t shape = Ret (t', f) /\ parts_reachable t' /\ pg_shape f = shape /\ pg_wf T f /\
       forall v, In v (pg_values f) -> v = zero) /\
  (forall f, pg_wf T f -> exists t',
     (let '(ind, vals) := pg_serialize T f in pg_deserialize T zero t ind vals) = Ret (t', f) /\ parts_reachable t').
Proof.
  intros T zero t Hr. split.
  - intros shape H. apply pg_init_spec; auto.
  - intros f H. apply pg_roundtrip; auto.
Qed.
Print Assumptions C08_construct_and_roundtrip.

(** If only labels inside the shape are considered, isPotts() can be false for a Potts function:
    for shape (2,2,2) no three labels are pairwise different, but their value is compared. *)
Theorem C08_isPotts_inside_shape_refuted :
  exists f : pottsg nat, pg_wf nat f /\ pg_isPotts nat Nat.eqb f = Ret false /\
    exists c, forall t l v, length l = 3 -> (forall i, i < 3 -> nth i l 0 < nth i (pg_shape f) 0) ->
      ~ all_equal l -> pg_eval nat 0 t f l = Ret (t, v) -> v = c.
Proof.
  exists (mkPottsG [2; 2; 2] [9; 1; 1; 1; 0]). split; [split; vm_compute; [repeat constructor|reflexivity]|].
  split; [reflexivity|]. exists 1. intros t l v L HB HA E.
  destruct l as [|a [|b [|c [|? ?]]]]; try discriminate L.
  pose proof (HB 0 ltac:(repeat constructor)) as B0. pose proof (HB 1 ltac:(repeat constructor)) as B1.
  pose proof (HB 2 ltac:(repeat constructor)) as B2. cbn in B0, B1, B2.
  destruct a as [|[|a]]; [| |Lia.lia]; destruct b as [|[|b]]; try Lia.lia; destruct c as [|[|c]]; try Lia.lia;
  vm_compute in E; try (injection E as <-; reflexivity);
  exfalso; apply HA; intros i j Hi Hj; cbn in Hi, Hj;
  destruct i as [|[|[|i]]]; try Lia.lia; destruct j as [|[|[|j]]]; try Lia.lia; reflexivity.
Qed.
Print Assumptions C08_isPotts_inside_shape_refuted.

(** isPotts() of a default constructed function reads behind the empty value vector. *)
Theorem C08_isPotts_default_refuted : pg_isPotts nat Nat.eqb (mkPottsG [] []) = Undef.
Proof. reflexivity. Qed.

(** Non-vacuity. *)
Example pg_wf_example : pg_wf nat (mkPottsG [3; 3; 3] [10; 20; 30; 40; 50]).
Proof. split; vm_compute; [repeat constructor|reflexivity]. Qed.
Example pg_wf_example5 : pg_wf nat (mkPottsG [2; 2; 2; 2; 2] (seq 0 52)).
Proof. split; vm_compute; [repeat constructor|reflexivity]. Qed.
Example parts_reachable_example : parts_reachable [].
Proof. exists []. split; [intros ? []|reflexivity]. Qed.
Example pg_eval_example : pg_eval nat 0 [] (mkPottsG [3; 3; 3] [10; 20; 30; 40; 50]) [2; 0; 2] = Ret ([], 30).
Proof. vm_compute. reflexivity. Qed.
Example pg_eval_example5 : exists t', pg_eval nat 0 [] (mkPottsG [2; 2; 2; 2; 2] (seq 0 52)) [1; 1; 1; 1; 1] = Ret (t', 51).
Proof. eexists. vm_compute. reflexivity. Qed.
