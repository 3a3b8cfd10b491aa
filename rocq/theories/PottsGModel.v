(** Model of opengm::PottsGFunction (include/opengm/functions/pottsg.hxx). The static table of
    opengm::Partitions is threaded explicitly as [t]. *)
From Verif Require Import Base PartitionsModel.

Section PottsG.
Variable T : Type.
Variable zero : T.
Variable eqb : T -> T -> bool.

(** pottsg.hxx:59-63, data members (size_ is the product of the shape and not modelled here). *)
Record pottsg := mkPottsG { pg_shape : list nat; pg_values : list T }.

(** pottsg.hxx:96-116, constructor from a shape. The assertion on MaximalOrder_ is only active in
    debug builds; order > 11 makes P.resize throw (or read behind the Bell table). *)
Definition pg_init (t : list N) (shape : list nat) : outcome (list N * pottsg) :=
  if Nat.leb (length shape) 4 then
    b <- rd BellTable (length shape) ;;
    Ret (t, mkPottsG shape (repeat zero (N.to_nat b)))
  else
    t' <- parts_resize t (length shape) ;;
    b <- BellNumber (length shape) ;;
    Ret (t', mkPottsG shape (repeat zero (N.to_nat b))).

(** pottsg.hxx:118-144, constructor from a shape and a value sequence; [vals] is the range the
    iterator runs over, reading behind it is undefined. *)
Definition pg_init_values (t : list N) (shape : list nat) (vals : list T) : outcome (list N * pottsg) :=
  '(t', f) <- pg_init t shape ;;
  if Nat.leb (length (pg_values f)) (length vals)
  then Ret (t', mkPottsG shape (firstn (length (pg_values f)) vals))
  else Undef.

(** pottsg.hxx:169-178 and 226-233, the bit index for orders up to 4. *)
Definition pg_indexer (n : nat) (l : list nat) : N :=
  fst (fold_left (fun st i =>
         fold_left (fun (st : N * N) j =>
             let '(indexer, bit) := st in
             (if Nat.eqb (nth i l 0) (nth j l 0) then N.add indexer bit else indexer, N.mul bit 2%N))
           (seq 0 i) st)
       (seq 1 (n - 1)) (0%N, 1%N)).

(** pottsg.hxx:179-202 and 246-265, the switch; None is [default]. *)
Definition pg_switch (indexer : N) : option nat :=
  match indexer with
  | 0%N => Some 0 | 1%N => Some 1 | 2%N => Some 2 | 4%N => Some 3 | 7%N => Some 4
  | 8%N => Some 5 | 12%N => Some 6 | 16%N => Some 7 | 18%N => Some 8 | 25%N => Some 9
  | 32%N => Some 10 | 33%N => Some 11 | 42%N => Some 12 | 52%N => Some 13 | 63%N => Some 14
  | _ => None
  end.

(** pottsg.hxx:154-209, operator(). values_[n] with n = (size_t)-1 is out of bounds. *)
Definition pg_eval (t : list N) (f : pottsg) (l : list nat) : outcome (list N * T) :=
  let n := length (pg_shape f) in
  if Nat.leb n 4 then
    match pg_switch (pg_indexer n l) with
    | Some k => v <- rd (pg_values f) k ;; Ret (t, v)
    | None => Ret (t, zero)
    end
  else
    '(t', k) <- label2Index t (firstn n l) ;;
    match k with
    | Some k => v <- rd (pg_values f) k ;; Ret (t', v)
    | None => Undef
    end.

(** pottsg.hxx:237-271, setByPartition (no rebuild of the table). *)
Definition pg_setByPartition (t : list N) (f : pottsg) (partition : N) (value : T) : outcome pottsg :=
  if Nat.leb (length (pg_shape f)) 4 then
    match pg_switch partition with
    | Some k => vs <- wr (pg_values f) k value ;; Ret (mkPottsG (pg_shape f) vs)
    | None => Ret f
    end
  else
    match number2Index t partition with
    | Some k => vs <- wr (pg_values f) k value ;; Ret (mkPottsG (pg_shape f) vs)
    | None => Undef
    end.

(** pottsg.hxx:211-235, setByLabel. *)
Definition pg_setByLabel (t : list N) (f : pottsg) (l : list nat) (value : T) : outcome (list N * pottsg) :=
  let n := length (pg_shape f) in
  if Nat.leb n 4 then
    f' <- pg_setByPartition t f (pg_indexer n l) value ;; Ret (t, f')
  else
    '(t', k) <- label2Index t (firstn n l) ;;
    match k with
    | Some k => vs <- wr (pg_values f) k value ;; Ret (t', mkPottsG (pg_shape f) vs)
    | None => Undef
    end.

(** pottsg.hxx:286-293, isPotts; values_.size()-1 wraps around for an empty vector, so the loop
    then reads behind it. *)
Definition pg_isPotts (f : pottsg) : outcome bool :=
  match pg_values f with
  | [] => Undef
  | _ =>
    foldM (fun tt i =>
        a <- rd (pg_values f) 0 ;;
        b <- rd (pg_values f) i ;;
        Ret (tt && eqb a b))
      (seq 1 (length (pg_values f) - 1 - 1)) true
  end.

(** pottsg.hxx:295-300 *)
Definition pg_isGeneralizedPotts (f : pottsg) : bool := true.

(** pottsg.hxx:318-335, serialization into an index and a value sequence. *)
Definition pg_serialize (f : pottsg) : list nat * list T :=
  (length (pg_shape f) :: pg_shape f, pg_values f).

(** pottsg.hxx:337-361, deserialization; reading behind a sequence is undefined. *)
Definition pg_deserialize (t : list N) (ind : list nat) (vals : list T) : outcome (list N * pottsg) :=
  dim <- rd ind 0 ;;
  b <- rd BellTable dim ;;
  shape <- mapM (fun i => rd ind (S i)) (seq 0 dim) ;;
  values <- mapM (fun i => rd vals i) (seq 0 (N.to_nat b)) ;;
  pg_init_values t shape values.
End PottsG.

Arguments mkPottsG {T}.
Arguments pg_shape {T}.
Arguments pg_values {T}.
