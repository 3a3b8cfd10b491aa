(** Specifications for C05 and C06. *)
From Verif Require Import Base QueuesModel RandomAccessSetSpec.

(** ** A priority map with capacity *)
Section PQSpec.
Variable T : Type.
Variable lt : T -> T -> bool.

(** Items currently stored, with their priority. *)
Definition pmap := nat -> option T.
Definition pm_empty : pmap := fun _ => None.
Definition pm_set (M : pmap) (i : nat) (p : option T) : pmap := fun j => if Nat.eqb j i then p else M j.

(** Number of stored items among 0..maxSize. *)
Definition pm_card (maxSize : nat) (M : pmap) : nat :=
  length (filter (fun i => match M i with Some _ => true | None => false end) (seq 0 (S maxSize))).

(** [i] is stored and no stored item has a strictly smaller priority. *)
Definition minimal (M : pmap) (i : nat) : Prop :=
  exists p, M i = Some p /\ forall j pj, M j = Some pj -> lt pj p = false.

(** One operation; ties in pop are resolved arbitrarily. *)
Inductive pm_step (M : pmap) : pq_op T -> pmap -> Prop :=
| ps_push : forall i p, pm_step M (QPush i p) (pm_set M i (Some p))
| ps_pop : forall i, minimal M i -> pm_step M QPop (pm_set M i None)
| ps_change : forall i p, pm_step M (QChange i p) (pm_set M i (Some p))
| ps_delete : forall i, pm_step M (QDelete i) (pm_set M i None)
| ps_setprio : forall p, pm_step M (QSetPriorities p)
    (fun i => match M i with Some _ => Some p | None => None end)
| ps_reset : pm_step M QReset pm_empty.

Inductive pm_run (M : pmap) : list (pq_op T) -> pmap -> Prop :=
| pr_nil : pm_run M [] M
| pr_cons : forall o ops M1 M2, pm_step M o M1 -> pm_run M1 ops M2 -> pm_run M (o :: ops) M2.

(** The caller respects the documented preconditions: items lie in 0..maxSize, at most maxSize
    of them are stored, pop is only called on a non-empty queue, changePriority and deleteItem
    only on stored items - whichever minimal item the earlier pops removed. *)
Fixpoint pq_legal (maxSize : nat) (M : pmap) (ops : list (pq_op T)) : Prop :=
  match ops with
  | [] => True
  | QPush i p :: t => i <= maxSize /\ (M i <> None \/ pm_card maxSize M < maxSize) /\
                      pq_legal maxSize (pm_set M i (Some p)) t
  | QPop :: t => (exists i, M i <> None) /\
                 forall i, minimal M i -> pq_legal maxSize (pm_set M i None) t
  | QChange i p :: t => M i <> None /\ pq_legal maxSize (pm_set M i (Some p)) t
  | QDelete i :: t => M i <> None /\ pq_legal maxSize (pm_set M i None) t
  | QSetPriorities p :: t =>
      pq_legal maxSize (fun i => match M i with Some _ => Some p | None => None end) t
  | QReset :: t => pq_legal maxSize pm_empty t
  end.

(** What the const interface of the queue shows is the map [M] (priorities up to equivalence,
    because changePriority ignores a new priority equivalent to the old one). *)
Definition pq_shows (maxSize : nat) (q : pq T) (M : pmap) : Prop :=
  pq_size T q = pm_card maxSize M /\
  (pq_empty T q = true <-> forall i, M i = None) /\
  (forall i, i <= maxSize -> exists b, pq_contains T q i = Ret b /\ (b = true <-> M i <> None)) /\
  (forall i, maxSize < i -> M i = None) /\
  (forall i p, M i = Some p -> exists p', pq_priority T q i = Ret p' /\ eqv T lt p' p) /\
  (pq_empty T q = false -> exists i p, pq_top T q = Ret (Some i) /\ minimal M i /\
     pq_topPriority T q = Ret p /\ exists p', M i = Some p' /\ eqv T lt p p').
End PQSpec.

(** ** A first-in first-out queue *)
Section FifoSpec.
Variable T : Type.

(** The stored elements, oldest first. *)
Definition fifo_spec_step (l : list T) (o : fifo_op T) : list T :=
  match o with
  | FPush t => l ++ [t]
  | FPop => tl l
  | FClear => []
  end.
Definition fifo_spec (ops : list (fifo_op T)) : list T := fold_left fifo_spec_step ops [].

(** At most [maxSize] elements stored at any time; pop only when non-empty. *)
Fixpoint fifo_legal (maxSize : nat) (l : list T) (ops : list (fifo_op T)) : Prop :=
  match ops with
  | [] => True
  | FPush t :: r => length l < maxSize /\ fifo_legal maxSize (l ++ [t]) r
  | FPop :: r => l <> [] /\ fifo_legal maxSize (tl l) r
  | FClear :: r => fifo_legal maxSize [] r
  end.

(** Stronger requirement under which the implementation is correct: at most [maxSize] pushes
    since construction or the last clear. *)
Fixpoint fifo_legal_total (maxSize pushed : nat) (l : list T) (ops : list (fifo_op T)) : Prop :=
  match ops with
  | [] => True
  | FPush t :: r => pushed < maxSize /\ fifo_legal_total maxSize (S pushed) (l ++ [t]) r
  | FPop :: r => l <> [] /\ fifo_legal_total maxSize pushed (tl l) r
  | FClear :: r => fifo_legal_total maxSize 0 [] r
  end.

Definition fifo_shows (q : fifo T) (l : list T) : Prop :=
  fifo_size T q = length l /\
  (fifo_empty T q = true <-> l = []) /\
  (forall a r, l = a :: r -> fifo_front T q = Ret a).
End FifoSpec.
