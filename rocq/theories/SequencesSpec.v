(** What a user expects of the sequence containers (C28): the contents behave as those of std::vector. *)
From Verif Require Import Base SequencesModel.

Section Spec.
Variable A : Type.
(** The contents of one sequence; [None] is an element that exists but has not been given a value yet. *)
Notation contents := (list (option A)).
(** All sequences, in the order of construction; [None] once destroyed. *)
Notation vworld := (list (option contents)).
Definition vget (w : vworld) (i : nat) : option contents := match nth_error w i with Some (Some c) => Some c | _ => None end.
Definition on (w : vworld) (i : nat) (f : contents -> option contents) : option vworld :=
  match vget w i with Some c => match f c with Some c' => Some (upd w i (Some c')) | None => None end | None => None end.
Definition resized (c : contents) (n : nat) : contents := firstn n c ++ repeat None (n - length c).
(** The std::vector meaning of each operation; [None] if it names a sequence or an element that does not exist. *)
Definition v_step (w : vworld) (p : sop A) : option vworld :=
  match p with
  | SDefault _ => Some (w ++ [Some []])
  | SSized _ n => Some (w ++ [Some (repeat None n)])
  | SFilled _ n v => Some (w ++ [Some (repeat (Some v) n)])
  | SCopy _ i => match vget w i with Some c => Some (w ++ [Some c]) | None => None end
  | SAssign _ i j => match vget w j with Some c => on w i (fun _ => Some c) | None => None end
  | SRange _ i l => on w i (fun _ => Some (map Some l))
  | SPush _ i v => on w i (fun c => Some (c ++ [Some v]))
  | SResize _ i n => on w i (fun c => Some (resized c n))
  | SReserve _ i n => on w i (fun c => Some c)
  | SClear _ i => on w i (fun _ => Some [])
  | SSet _ i k v => on w i (fun c => if k <? length c then Some (upd c k (Some v)) else None)
  | SDestroy _ i => match vget w i with Some _ => Some (upd w i None) | None => None end
  end.
Definition vsize (w : vworld) (i : nat) : nat := match vget w i with Some c => length c | None => 0 end.

(** *** FastSequence: capacities, and what is allowed *)
Section Fast.
Variable MAX : nat.
Definition fast_caps (w : vworld) (cs : list nat) (p : sop A) : list nat :=
  match p with
  | SDefault _ => cs ++ [MAX]
  | SSized _ n | SFilled _ n _ => cs ++ [Nat.max MAX n]
  | SCopy _ i => cs ++ [nth i cs 0]
  | SAssign _ i j => if negb (i =? j) && (MAX <? vsize w j) then upd cs i (vsize w j) else cs
  | SRange _ i l => upd cs i (Nat.max (nth i cs 0) (length l))
  | SPush _ i v => if nth i cs 0 =? vsize w i then upd cs i (2 * nth i cs 0) else cs
  | SResize _ i n | SReserve _ i n => upd cs i (Nat.max (nth i cs 0) n)
  | SClear _ i => upd cs i MAX
  | SSet _ _ _ _ | SDestroy _ _ => cs
  end.
(** Only copying and assigning whole sequences is restricted: a sequence may be copied while its capacity is the smallest
    one for its size, and it may be assigned to while its own data is on the stack, or while both are too long for it. *)
Definition fast_legal (w : vworld) (cs : list nat) (p : sop A) : Prop :=
  match p with
  | SCopy _ i => nth i cs 0 = Nat.max MAX (vsize w i)
  | SAssign _ i j => i = j \/ nth i cs 0 = MAX \/ (MAX < vsize w i /\ MAX < vsize w j)
  | _ => True
  end.
Inductive fast_history : list (sop A) -> vworld -> list nat -> Prop :=
| fh_nil : fast_history [] [] []
| fh_snoc : forall ops w cs p w', fast_history ops w cs -> v_step w p = Some w' -> fast_legal w cs p -> fast_history (ops ++ [p]) w' (fast_caps w cs p).
(** Histories without copy construction and assignment between sequences. *)
Definition no_copies (p : sop A) : Prop := match p with SCopy _ _ | SAssign _ _ _ => False | _ => True end.
Inductive vector_history : list (sop A) -> vworld -> Prop :=
| vh_nil : vector_history [] []
| vh_snoc : forall ops w p w', vector_history ops w -> v_step w p = Some w' -> vector_history (ops ++ [p]) w'.
End Fast.

(** *** BufferVector: capacity, and whether the data pointer has been initialised *)
Definition buf_caps (w : vworld) (cs : list (nat * bool)) (p : sop A) : list (nat * bool) :=
  let cap i := fst (nth i cs (0, true)) in
  match p with
  | SDefault _ => cs ++ [(0, true)]
  | SSized _ n => cs ++ [(n, negb (n =? 0))]
  | SFilled _ n _ => cs ++ [(n, true)]
  | SCopy _ i => cs ++ [(vsize w i, negb (vsize w i =? 0))]
  | SAssign _ i j => if negb (i =? j) && (cap i <? vsize w j) then upd cs i (vsize w j, true) else cs
  | SRange _ i l => if cap i <? length l then upd cs i (length l, true) else cs
  | SResize _ i n => if cap i <? n then upd cs i (n, true) else cs
  | SPush _ i v => if cap i =? vsize w i then upd cs i (if vsize w i =? 0 then 2 else cap i * 2, true) else cs
  | SReserve _ _ _ | SClear _ _ | SSet _ _ _ _ | SDestroy _ _ => cs
  end.
(** Excluded: constructing zero copies of a value; growing a cleared vector beyond its capacity by resize or assign;
    a reserve that exceeds the capacity; growing by operator= one that was constructed empty with BufferVector(0) or as
    a copy of an empty one. *)
Definition buf_legal (w : vworld) (cs : list (nat * bool)) (p : sop A) : Prop :=
  let cap i := fst (nth i cs (0, true)) in
  match p with
  | SFilled _ n _ => n <> 0
  | SAssign _ i j => i = j \/ vsize w j <= cap i \/ snd (nth i cs (0, true)) = true
  | SRange _ i l => length l <= cap i \/ vsize w i <> 0 \/ cap i = 0
  | SResize _ i n => n <= cap i \/ vsize w i <> 0 \/ cap i = 0
  | SReserve _ i n => n <= cap i
  | _ => True
  end.
Inductive buf_history : list (sop A) -> vworld -> list (nat * bool) -> Prop :=
| bh_nil : buf_history [] [] []
| bh_snoc : forall ops w cs p w', buf_history ops w cs -> v_step w p = Some w' -> buf_legal w cs p -> buf_history (ops ++ [p]) w' (buf_caps w cs p).

(** The state of the program shows the contents [w]: the same sequences exist, with the same sizes, and reading an
    element that has been given a value returns it; nothing is left in memory once no sequence exists. *)
Definition shows (st : list (option (list (option A))) * list (option (sq A))) (w : vworld) : Prop :=
  length (snd st) = length w /\
  (forall i, nth_error w i = Some None -> nth_error (snd st) i = Some None) /\
  (forall i c, nth_error w i = Some (Some c) -> exists o, nth_error (snd st) i = Some (Some o) /\ q_size A o = length c /\
     forall k v, nth_error c k = Some (Some v) -> at_ A (fst st) o k = Ret v) /\
  ((forall i c, nth_error w i <> Some (Some c)) -> forall a b, nth_error (fst st) a <> Some (Some b)).
End Spec.
