(** Model of opengm::FiFoQueue and opengm::ChangeablePriorityQueue
    (include/opengm/datastructures/queues.hxx). *)
From Verif Require Import Base.

Section Fifo.
Variable T : Type.
Variable d : T.  (** T(), the value std::vector::resize fills with *)

(** queues.hxx:13-16, data members. *)
Record fifo := mkFifo { f_begin : nat; f_end : nat; f_maxSize : nat; f_data : list T }.

(** queues.hxx:19-22, constructor. *)
Definition fifo_init (maxSize : nat) : fifo := mkFifo 0 0 maxSize (repeat d maxSize).
(** queues.hxx:24-26, front. *)
Definition fifo_front (q : fifo) : outcome T := rd (f_data q) (f_begin q).
(** queues.hxx:28-30, pop. *)
Definition fifo_pop (q : fifo) : fifo := mkFifo (S (f_begin q)) (f_end q) (f_maxSize q) (f_data q).
(** queues.hxx:32-39, push: [end_] is never wrapped. *)
Definition fifo_push (q : fifo) (t : T) : outcome fifo :=
  data' <- wr (f_data q) (f_end q) t ;;
  Ret (mkFifo (f_begin q) (S (f_end q)) (f_maxSize q) data').
(** queues.hxx:41-43, empty. *)
Definition fifo_empty (q : fifo) : bool := Nat.eqb (f_begin q) (f_end q).
(** queues.hxx:45-50, size (the second branch in unbounded arithmetic; it is unreachable in
    histories that never pop an empty queue). *)
Definition fifo_size (q : fifo) : nat :=
  if Nat.leb (f_begin q) (f_end q) then f_end q - f_begin q
  else f_end q + f_maxSize q - 1 - f_begin q.
(** queues.hxx:52-55, clear. *)
Definition fifo_clear (q : fifo) : fifo := mkFifo 0 0 (f_maxSize q) (f_data q).

Inductive fifo_op := FPush (t : T) | FPop | FClear.
Definition fifo_step (q : fifo) (o : fifo_op) : outcome fifo :=
  match o with
  | FPush t => fifo_push q t
  | FPop => Ret (fifo_pop q)
  | FClear => Ret (fifo_clear q)
  end.
Definition fifo_run (maxSize : nat) (ops : list fifo_op) : outcome fifo :=
  foldM fifo_step ops (fifo_init maxSize).
End Fifo.

Section PQ.
Variable T : Type.
Variable d : T.                  (** T() *)
Variable lt : T -> T -> bool.    (** comp_ *)

(** queues.hxx:235-239, data members. The [int] entries of heap_ and indices_ are either -1,
    modelled by [None], or a non-negative number. *)
Record pq := mkPq {
  q_max : nat;
  q_cur : nat;
  q_heap : list (option nat);
  q_ind : list (option nat);
  q_prio : list T }.

(** queues.hxx:227-229, _gt. *)
Definition pq_eq (a b : T) : bool := negb (lt a b) && negb (lt b a).
Definition pq_gt (a b : T) : bool := negb (pq_eq a b) && negb (lt a b).
(** queues.hxx:221-223, _leqt. *)
Definition pq_leqt (a b : T) : bool := negb (lt b a).

(** queues.hxx:79-88, constructor: std::vector value-initialises heap_ with 0. *)
Definition pq_init (maxSize : nat) : pq :=
  mkPq maxSize 0 (repeat (Some 0) (S maxSize)) (repeat None (S maxSize)) (repeat d (S maxSize)).

(** queues.hxx:91-95, setPriorities. *)
Definition pq_setPriorities (q : pq) (p : T) : pq :=
  mkPq (q_max q) (q_cur q) (q_heap q) (q_ind q) (map (fun _ => p) (q_prio q)).

(** Indexing a vector with an [int]: -1 is out of bounds. *)
Definition rdi {A : Type} (l : list A) (i : option nat) : outcome A :=
  match i with Some i => rd l i | None => Undef end.
Definition wri {A : Type} (l : list A) (i : option nat) (v : A) : outcome (list A) :=
  match i with Some i => wr l i v | None => Undef end.

(** queues.hxx:98-102, reset. *)
Definition pq_reset (q : pq) : outcome pq :=
  ind' <- foldM (fun ind i => h <- rd (q_heap q) i ;; wri ind h None)
                (seq 0 (S (q_cur q))) (q_ind q) ;;
  Ret (mkPq (q_max q) 0 (q_heap q) ind' (q_prio q)).

(** queues.hxx:105-117, empty, contains, size. *)
Definition pq_empty (q : pq) : bool := Nat.eqb (q_cur q) 0.
Definition pq_contains (q : pq) (i : nat) : outcome bool :=
  x <- rd (q_ind q) i ;; Ret (match x with Some _ => true | None => false end).
Definition pq_size (q : pq) : nat := q_cur q.

(** queues.hxx:191-195, swapItems. *)
Definition pq_swap (q : pq) (i j : nat) : outcome pq :=
  hi <- rd (q_heap q) i ;;
  hj <- rd (q_heap q) j ;;
  h1 <- wr (q_heap q) i hj ;;
  h2 <- wr h1 j hi ;;
  a <- rd h2 i ;;
  ind1 <- wri (q_ind q) a (Some i) ;;
  b <- rd h2 j ;;
  ind2 <- wri ind1 b (Some j) ;;
  Ret (mkPq (q_max q) (q_cur q) h2 ind2 (q_prio q)).

(** priorities_[heap_[k]] *)
Definition pq_key (q : pq) (k : nat) : outcome T :=
  h <- rd (q_heap q) k ;; rdi (q_prio q) h.

(** queues.hxx:197-202, bubbleUp; [fuel] bounds the number of loop tests. *)
Fixpoint pq_bubbleUp (fuel : nat) (q : pq) (k : nat) : outcome pq :=
  match fuel with
  | 0 => Diverge
  | S fuel' =>
      if Nat.ltb 1 k then
        a <- pq_key q (Nat.div2 k) ;;
        b <- pq_key q k ;;
        if pq_gt a b then
          q' <- pq_swap q k (Nat.div2 k) ;;
          pq_bubbleUp fuel' q' (Nat.div2 k)
        else Ret q
      else Ret q
  end.

(** queues.hxx:204-215, bubbleDown. *)
Fixpoint pq_bubbleDown (fuel : nat) (q : pq) (k : nat) : outcome pq :=
  match fuel with
  | 0 => Diverge
  | S fuel' =>
      if Nat.leb (2 * k) (q_cur q) then
        j <- (if Nat.ltb (2 * k) (q_cur q) then
                a <- pq_key q (2 * k) ;;
                b <- pq_key q (2 * k + 1) ;;
                Ret (if pq_gt a b then 2 * k + 1 else 2 * k)
              else Ret (2 * k)) ;;
        a <- pq_key q k ;;
        b <- pq_key q j ;;
        if pq_leqt a b then Ret q
        else q' <- pq_swap q k j ;; pq_bubbleDown fuel' q' j
      else Ret q
  end.

(** Loop budgets: both loops visit strictly monotone positions below currentSize_ + 2. *)
Definition pq_fuel (q : pq) : nat := S (S (q_cur q)).

(** Calls bubbleUp(indices_[i]) / bubbleDown(indices_[i]) with an [int] argument; for -1 neither
    loop is entered (k > 1 fails; 2*k converts to a huge size_t, so 2*k <= currentSize_ fails). *)
Definition pq_bubbleUp_i (q : pq) (k : option nat) : outcome pq :=
  match k with Some k => pq_bubbleUp (pq_fuel q) q k | None => Ret q end.
Definition pq_bubbleDown_i (q : pq) (k : option nat) : outcome pq :=
  match k with Some k => pq_bubbleDown (pq_fuel q) q k | None => Ret q end.

(** queues.hxx:178-187, changePriority. *)
Definition pq_changePriority (q : pq) (i : nat) (p : T) : outcome pq :=
  old <- rd (q_prio q) i ;;
  ind <- rd (q_ind q) i ;;
  if pq_gt p old then
    pr' <- wr (q_prio q) i p ;;
    pq_bubbleDown_i (mkPq (q_max q) (q_cur q) (q_heap q) (q_ind q) pr') ind
  else if lt p old then
    pr' <- wr (q_prio q) i p ;;
    pq_bubbleUp_i (mkPq (q_max q) (q_cur q) (q_heap q) (q_ind q) pr') ind
  else Ret q.

(** queues.hxx:126-137, push. *)
Definition pq_push (q : pq) (i : nat) (p : T) : outcome pq :=
  c <- pq_contains q i ;;
  if negb c then
    let cur' := S (q_cur q) in
    ind' <- wr (q_ind q) i (Some cur') ;;
    heap' <- wr (q_heap q) cur' (Some i) ;;
    pr' <- wr (q_prio q) i p ;;
    let q' := mkPq (q_max q) cur' heap' ind' pr' in
    pq_bubbleUp (pq_fuel q') q' cur'
  else pq_changePriority q i p.

(** queues.hxx:141-149, top, topPriority; reading an entry -1 as an item would be a
    use of an invalid index by the caller, so it is returned as an option. *)
Definition pq_top (q : pq) : outcome (option nat) := rd (q_heap q) 1.
Definition pq_topPriority (q : pq) : outcome T := pq_key q 1.

(** queues.hxx:153-159, pop. [currentSize_--] on 0 wraps around; modelled as [Undef]. *)
Definition pq_pop (q : pq) : outcome pq :=
  mn <- rd (q_heap q) 1 ;;
  match q_cur q with
  | 0 => Undef
  | S cur' =>
      q1 <- pq_swap q 1 (S cur') ;;
      let q2 := mkPq (q_max q1) cur' (q_heap q1) (q_ind q1) (q_prio q1) in
      q3 <- pq_bubbleDown (pq_fuel q2) q2 1 ;;
      ind' <- wri (q_ind q3) mn None ;;
      heap' <- wr (q_heap q3) (S (q_cur q3)) None ;;
      Ret (mkPq (q_max q3) (q_cur q3) heap' ind' (q_prio q3))
  end.

(** queues.hxx:162-164, priority. *)
Definition pq_priority (q : pq) (i : nat) : outcome T := rd (q_prio q) i.

(** queues.hxx:167-173, deleteItem; indices_[i] = -1 makes swapItems index heap_[-1]. *)
Definition pq_deleteItem (q : pq) (i : nat) : outcome pq :=
  ind <- rd (q_ind q) i ;;
  match ind, q_cur q with
  | Some ind, S cur' =>
      q1 <- pq_swap q ind (S cur') ;;
      let q2 := mkPq (q_max q1) cur' (q_heap q1) (q_ind q1) (q_prio q1) in
      q3 <- pq_bubbleUp (pq_fuel q2) q2 ind ;;
      q4 <- pq_bubbleDown (pq_fuel q3) q3 ind ;;
      ind' <- wr (q_ind q4) i None ;;
      Ret (mkPq (q_max q4) (q_cur q4) (q_heap q4) ind' (q_prio q4))
  | _, _ => Undef
  end.

Inductive pq_op :=
| QPush (i : nat) (p : T)
| QPop
| QChange (i : nat) (p : T)
| QDelete (i : nat)
| QSetPriorities (p : T)
| QReset.

Definition pq_step (q : pq) (o : pq_op) : outcome pq :=
  match o with
  | QPush i p => pq_push q i p
  | QPop => pq_pop q
  | QChange i p => pq_changePriority q i p
  | QDelete i => pq_deleteItem q i
  | QSetPriorities p => Ret (pq_setPriorities q p)
  | QReset => pq_reset q
  end.

Definition pq_run (maxSize : nat) (ops : list pq_op) : outcome pq :=
  foldM pq_step ops (pq_init maxSize).
End PQ.

Arguments FPush {T} t.
Arguments FPop {T}.
Arguments FClear {T}.
Arguments QPush {T} i p.
Arguments QPop {T}.
Arguments QChange {T} i p.
Arguments QDelete {T} i.
Arguments QSetPriorities {T} p.
Arguments QReset {T}.
