(** Model of include/opengm/utilities/indexing.hxx. Coordinates and extents are size_t, modelled
    by [nat]; FastSequence<size_t> is a list (its own memory management is modelled separately in
    SequencesModel.v). A shape iterator is the list of the extents it ranges over. *)
From Verif Require Import Base.

(** indexing.hxx:10-18, isEqualValueVector; the loop over all i with an early return. *)
Definition isEqualValueVector (v : list nat) : bool :=
  forallb (fun i => Nat.eqb (nth 0 v 0) (nth i v 0)) (seq 0 (length v)).

(** ** ShapeWalker, indexing.hxx:121-158 *)

(** indexing.hxx:129-147, operator++: the loop over d = [ds]. [x != s - 1] on size_t is
    [S x <> s] on nat, also for s = 0 (where s - 1 wraps around to the maximal value). *)
Fixpoint sw_loop (dim : nat) (shape : list nat) (ds : list nat) (c : list nat) : outcome (list nat) :=
  match ds with
  | [] => Ret c
  | d :: ds' =>
      x <- rd c d ;;
      s <- rd shape d ;;
      if negb (Nat.eqb (S x) s) then wr c d (S x)
      else if negb (Nat.eqb (S d) dim) then c' <- wr c d 0 ;; sw_loop dim shape ds' c'
      else wr c d (S x)
  end.
Definition sw_next (shape c : list nat) (dim : nat) : outcome (list nat) :=
  sw_loop dim shape (seq 0 dim) c.

(** indexing.hxx:125-128, constructor; 151-153, reset. *)
Definition sw_init (dim : nat) : list nat := repeat 0 dim.
Definition sw_reset (c : list nat) : list nat := repeat 0 (length c).

(** ** ShapeWalkerSwitchedOrder, indexing.hxx:160-198 *)

(** indexing.hxx:168-189, operator++: d runs downwards from dimension_-1 without a test. *)
Fixpoint so_loop (shape : list nat) (d : nat) (c : list nat) : outcome (list nat) :=
  x <- rd c d ;;
  s <- rd shape d ;;
  if negb (Nat.eqb (S x) s) then wr c d (S x)
  else match d with
       | S d' => c' <- wr c d 0 ;; so_loop shape d' c'
       | 0 => wr c d (S x)
       end.
(** For dimension 0, d starts at the maximal size_t: an out-of-bounds access. *)
Definition so_next (shape c : list nat) (dim : nat) : outcome (list nat) :=
  match dim with
  | 0 => Undef
  | S d => so_loop shape d c
  end.

(** ** SubShapeWalker, indexing.hxx:21-119 *)

(** indexing.hxx:41-43 and 51-53, writing the fixed coordinates. *)
Definition ssw_fix (fixedIndex fixedValue : list nat) (c : list nat) : outcome (list nat) :=
  foldM (fun c d =>
      i <- rd fixedIndex d ;;
      v <- rd fixedValue d ;;
      wr c i v) (seq 0 (length fixedIndex)) c.

(** indexing.hxx:29-44, constructor. *)
Definition ssw_init (dim : nat) (fixedIndex fixedValue : list nat) : outcome (list nat) :=
  ssw_fix fixedIndex fixedValue (repeat 0 dim).

(** indexing.hxx:47-54, resetCoordinate. *)
Definition ssw_reset (dim : nat) (fixedIndex fixedValue : list nat) (c : list nat) : outcome (list nat) :=
  c' <- foldM (fun c i => wr c i 0) (seq 0 dim) c ;;
  ssw_fix fixedIndex fixedValue c'.

(** indexing.hxx:60-66, the inner loop: i starts at the value counter has before the loop. *)
Definition ssw_scan (fixedIndex : list nat) (counter d : nat) : bool * nat :=
  fold_left (fun (st : bool * nat) i =>
      if Nat.eqb d (nth i fixedIndex 0) then (true, S (snd st)) else st)
    (seq counter (length fixedIndex - counter)) (false, counter).

(** indexing.hxx:57-84, operator++. *)
Fixpoint ssw_loop (dim : nat) (shape fixedIndex ds : list nat) (counter : nat) (c : list nat)
  : outcome (list nat) :=
  match ds with
  | [] => Ret c
  | d :: ds' =>
      let '(atFixed, counter') := ssw_scan fixedIndex counter d in
      if atFixed then ssw_loop dim shape fixedIndex ds' counter' c
      else
        x <- rd c d ;;
        s <- rd shape d ;;
        if negb (Nat.eqb (S x) s) then wr c d (S x)
        else if negb (Nat.eqb (S d) dim) then
          c' <- wr c d 0 ;; ssw_loop dim shape fixedIndex ds' counter' c'
        else wr c d (S x)
  end.
Definition ssw_next (shape fixedIndex c : list nat) (dim : nat) : outcome (list nat) :=
  ssw_loop dim shape fixedIndex (seq 0 dim) 0 c.

(** indexing.hxx:97-104, the inner loop of subSize (stops at the first match). *)
Definition ssw_scan1 (fixedIndex : list nat) (counter d : nat) : bool * nat :=
  if existsb (fun i => Nat.eqb d (nth i fixedIndex 0)) (seq counter (length fixedIndex - counter))
  then (true, S counter) else (false, counter).

(** indexing.hxx:92-110, subSize (the product is not reduced modulo 2^64). *)
Definition ssw_subSize (shape fixedIndex : list nat) (dim : nat) : outcome nat :=
  '(result, _) <- foldM (fun (st : nat * nat) d =>
      let '(result, counter) := st in
      let '(fixedVal, counter') := ssw_scan1 fixedIndex counter d in
      if fixedVal then Ret (result, counter')
      else s <- rd shape d ;; Ret (result * s, counter'))
    (seq 0 dim) (1, 0) ;;
  Ret result.

(** ** DoubleShapeWalker, indexing.hxx:292-356 *)

(** viMatchA_ and viMatchIndexA_; [None] is an uninitialised entry of viMatchIndexA_. *)
Definition matching := (list bool * list (option nat))%type.
Definition no_match (dim : nat) : matching := (repeat false dim, repeat None dim).

(** indexing.hxx:307-317, constructor: variable index matching. *)
Definition dsw_match (dim : nat) (viAB viA : list nat) : outcome matching :=
  '(m, _) <- foldM (fun (st : matching * nat) d =>
      foldM (fun (st : matching * nat) i =>
          let '((mt, mi), counterA) := st in
          x <- rd viAB d ;;
          y <- rd viA i ;;
          if Nat.eqb x y then
            mt' <- wr mt d true ;;
            mi' <- wr mi d (Some i) ;;
            Ret ((mt', mi'), S counterA)
          else Ret st)
        (seq (snd st) (length viA - snd st)) st)
    (seq 0 dim) (no_match dim, 0) ;;
  Ret m.

(** indexing.hxx:322-324 and 329-331, update of the sub-coordinate belonging to dimension d. *)
Definition sub_set (m : matching) (d : nat) (g : nat -> nat) (cA : list nat) : outcome (list nat) :=
  b <- rd (fst m) d ;;
  if b then
    oi <- rd (snd m) d ;;
    match oi with
    | None => Undef
    | Some i => x <- rd cA i ;; wr cA i (g x)
    end
  else Ret cA.

(** indexing.hxx:320-335, operator++. *)
Fixpoint dsw_loop (shape : list nat) (m : matching) (ds : list nat) (st : list nat * list nat)
  : outcome (list nat * list nat) :=
  match ds with
  | [] => Ret st
  | d :: ds' =>
      let '(cAB, cA) := st in
      x <- rd cAB d ;;
      s <- rd shape d ;;
      if negb (Nat.eqb (S x) s) then
        cAB' <- wr cAB d (S x) ;;
        cA' <- sub_set m d S cA ;;
        Ret (cAB', cA')
      else
        cAB' <- wr cAB d 0 ;;
        cA' <- sub_set m d (fun _ => 0) cA ;;
        dsw_loop shape m ds' (cAB', cA')
  end.
Definition dsw_next (dim : nat) (shape : list nat) (m : matching) (st : list nat * list nat) :=
  dsw_loop shape m (seq 0 dim) st.

(** The walker after construction and k increments. *)
Definition dsw_init (dim : nat) (viA : list nat) : list nat * list nat := (repeat 0 dim, repeat 0 (length viA)).
Definition dsw_run (shape viAB viA : list nat) (dim k : nat) : outcome (list nat * list nat) :=
  m <- dsw_match dim viAB viA ;;
  foldM (fun st _ => dsw_next dim shape m st) (seq 0 k) (dsw_init dim viA).

(** ** TripleShapeWalker, indexing.hxx:200-290 *)

(** indexing.hxx:226-241, one of the two matchings (they are independent of each other). *)
Definition tsw_match (dim : nat) (viAB viA : list nat) : outcome matching :=
  '(m, _) <- foldM (fun (st : matching * nat) d =>
      let '((mt, mi), counterA) := st in
      if Nat.ltb counterA (length viA) then
        x <- rd viAB d ;;
        y <- rd viA counterA ;;
        if Nat.eqb x y then
          mt' <- wr mt d true ;;
          mi' <- wr mi d (Some counterA) ;;
          Ret ((mt', mi'), S counterA)
        else Ret st
      else Ret st)
    (seq 0 dim) (no_match dim, 0) ;;
  Ret m.

(** indexing.hxx:244-268, operator++ (the casts to int are not modelled: extents below 2^31). *)
Fixpoint tsw_loop (shape : list nat) (mA mB : matching) (ds : list nat) (st : list nat * list nat * list nat)
  : outcome (list nat * list nat * list nat) :=
  match ds with
  | [] => Ret st
  | d :: ds' =>
      let '(cAB, cA, cB) := st in
      x <- rd cAB d ;;
      s <- rd shape d ;;
      if negb (Nat.eqb (S x) s) then
        cAB' <- wr cAB d (S x) ;;
        cA' <- sub_set mA d S cA ;;
        cB' <- sub_set mB d S cB ;;
        Ret (cAB', cA', cB')
      else
        cAB' <- wr cAB d 0 ;;
        cA' <- sub_set mA d (fun _ => 0) cA ;;
        cB' <- sub_set mB d (fun _ => 0) cB ;;
        tsw_loop shape mA mB ds' (cAB', cA', cB')
  end.
Definition tsw_next (dim : nat) (shape : list nat) (mA mB : matching) (st : list nat * list nat * list nat) :=
  tsw_loop shape mA mB (seq 0 dim) st.
Definition tsw_run (shape viAB viA viB : list nat) (dim k : nat) : outcome (list nat * list nat * list nat) :=
  mA <- tsw_match dim viAB viA ;;
  mB <- tsw_match dim viAB viB ;;
  foldM (fun st _ => tsw_next dim shape mA mB st) (seq 0 k)
    (repeat 0 dim, repeat 0 (length viA), repeat 0 (length viB)).

(** Walking k steps. *)
Definition sw_run (shape : list nat) (dim k : nat) : outcome (list nat) :=
  foldM (fun c _ => sw_next shape c dim) (seq 0 k) (sw_init dim).
Definition so_run (shape : list nat) (dim k : nat) : outcome (list nat) :=
  foldM (fun c _ => so_next shape c dim) (seq 0 k) (sw_init dim).
Definition ssw_run (shape fixedIndex fixedValue : list nat) (dim k : nat) : outcome (list nat) :=
  c <- ssw_init dim fixedIndex fixedValue ;;
  foldM (fun c _ => ssw_next shape fixedIndex c dim) (seq 0 k) c.
