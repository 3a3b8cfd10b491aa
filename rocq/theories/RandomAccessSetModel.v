(** Model of opengm::RandomAccessSet (include/opengm/datastructures/randomaccessset.hxx).
    A set is its std::vector [vector_]; [lt] is the comparator object [compare_].
    Iterators are positions; [length v] is end(). *)
From Verif Require Import Base.

Section RandomAccessSet.
Variable K : Type.
Variable lt : K -> K -> bool.

(** The binary search loop shared by std::lower_bound and std::upper_bound (libstdc++):
    [while(len > 0) { half = len >> 1; mid = first + half;
       if(goRight( *mid)) { first = mid + 1; len = len - half - 1; } else len = half; }].
    [fuel] bounds the number of iterations. *)
Fixpoint bsearch (fuel : nat) (goRight : K -> bool) (v : list K) (first len : nat) : outcome nat :=
  match len with
  | 0 => Ret first
  | _ =>
    match fuel with
    | 0 => Diverge
    | S fuel' =>
        let half := Nat.div2 len in
        let mid := first + half in
        x <- rd v mid ;;
        if goRight x then bsearch fuel' goRight v (S mid) (len - half - 1)
        else bsearch fuel' goRight v first half
    end
  end.

(** randomaccessset.hxx:512-533, lower_bound. *)
Definition ras_lower_bound (v : list K) (value : K) : outcome nat :=
  bsearch (length v) (fun x => lt x value) v 0 (length v).

(** randomaccessset.hxx:538-559, upper_bound. *)
Definition ras_upper_bound (v : list K) (value : K) : outcome nat :=
  bsearch (length v) (fun x => negb (lt value x)) v 0 (length v).

(** randomaccessset.hxx:564-585, equal_range; std::equal_range is specified as the pair of
    lower_bound and upper_bound. *)
Definition ras_equal_range (v : list K) (value : K) : outcome (nat * nat) :=
  l <- ras_lower_bound v value ;;
  u <- ras_upper_bound v value ;;
  Ret (l, u).

(** std::vector::insert at position [i]. *)
Definition vec_insert (v : list K) (i : nat) (x : K) : list K := firstn i v ++ x :: skipn i v.

(** std::vector::erase of the positions [i, j). *)
Definition vec_erase (v : list K) (i j : nat) : list K := firstn i v ++ skipn j v.

(** randomaccessset.hxx:320-333, insert(value); returns the new vector, the position and
    whether the value was inserted. *)
Definition ras_insert (v : list K) (value : K) : outcome (list K * nat * bool) :=
  i <- ras_lower_bound v value ;;
  if Nat.eqb i (length v) then Ret (vec_insert v i value, i, true)
  else
    x <- rd v i ;;
    if lt value x then Ret (vec_insert v i value, i, true) else Ret (v, i, false).

(** randomaccessset.hxx:339-352, range insert (also the range constructor, lines 155-170). *)
Definition ras_insert_range (v : list K) (l : list K) : outcome (list K) :=
  foldM (fun v x => '(v', _, _) <- ras_insert v x ;; Ret v') l v.

(** randomaccessset.hxx:462-494, find. *)
Definition ras_find (v : list K) (value : K) : outcome nat :=
  i <- ras_lower_bound v value ;;
  if Nat.eqb i (length v) then Ret i
  else
    x <- rd v i ;;
    Ret (if lt value x then length v else i).

(** randomaccessset.hxx:499-507, count. *)
Definition ras_count (v : list K) (value : K) : outcome nat :=
  i <- ras_find v value ;;
  Ret (if Nat.eqb i (length v) then 0 else 1).

(** randomaccessset.hxx:375-383, erase(position); erasing end() is undefined. *)
Definition ras_erase_pos (v : list K) (i : nat) : outcome (list K) :=
  if Nat.ltb i (length v) then Ret (vec_erase v i (S i)) else Undef.

(** randomaccessset.hxx:387-401, erase(key). *)
Definition ras_erase_key (v : list K) (x : K) : outcome (list K * nat) :=
  i <- ras_find v x ;;
  if negb (Nat.eqb i (length v)) then
    v' <- ras_erase_pos v i ;; Ret (v', 1)
  else Ret (v, 0).

(** randomaccessset.hxx:406-415, erase(first, last). *)
Definition ras_erase_range (v : list K) (i j : nat) : outcome (list K) :=
  if Nat.leb i j && Nat.leb j (length v) then Ret (vec_erase v i j) else Undef.

(** randomaccessset.hxx:434-438, clear; 110-113, assignFromSet. *)
Definition ras_clear (v : list K) : list K := [].
Definition ras_assignFromSet (v : list K) (l : list K) : list K := l.

(** The public mutating interface. The hinted insert (lines 358-371) is not an operation of the
    model: it calls a member operator() that the class does not have, so it cannot be
    instantiated. *)
Inductive ras_op :=
| RInsert (k : K)
| RInsertRange (l : list K)
| REraseKey (k : K)
| RErasePos (i : nat)
| REraseRange (i j : nat)
| RClear
| RAssignFromSet (l : list K).

Definition ras_step (v : list K) (o : ras_op) : outcome (list K) :=
  match o with
  | RInsert k => '(v', _, _) <- ras_insert v k ;; Ret v'
  | RInsertRange l => ras_insert_range v l
  | REraseKey k => '(v', _) <- ras_erase_key v k ;; Ret v'
  | RErasePos i => ras_erase_pos v i
  | REraseRange i j => ras_erase_range v i j
  | RClear => Ret (ras_clear v)
  | RAssignFromSet l => Ret (ras_assignFromSet v l)
  end.

(** Default constructor: empty vector. *)
Definition ras_run (ops : list ras_op) : outcome (list K) := foldM ras_step ops [].

End RandomAccessSet.

Arguments RInsert {K} k.
Arguments RInsertRange {K} l.
Arguments REraseKey {K} k.
Arguments RErasePos {K} i.
Arguments REraseRange {K} i j.
Arguments RClear {K}.
Arguments RAssignFromSet {K} l.

(** randomaccessset.hxx:419-428, swap, on (vector_, compare_) pairs: the comparator is copied
    from rhs to this but not back. *)
Definition ras_swap {K : Type} (this rhs : list K * (K -> K -> bool)) :
  (list K * (K -> K -> bool)) * (list K * (K -> K -> bool)) :=
  ((fst rhs, snd rhs), (fst this, snd rhs)).
