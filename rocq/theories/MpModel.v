(** Message passing with the update rules of belief propagation:
    include/opengm/inference/messagepassing/messagepassing.hxx, messagepassing_bp.hxx, messagepassing_buffer.hxx and
    messagepassing_operations_withFunctors.hxx (the file messagepassing_operations.hxx includes it first, and both have
    the same include guard, so that its own definitions are never seen by the compiler).

    The graphical model is read through its view (GmView.v).  A message is the list of the values of a
    one-dimensional marray.  A pointer to a message buffer is the pair of the hull and the place of the buffer in the
    hull; [None] is the null pointer.  The ShapeWalker over a factor is the sequence of the coordinates coord_of (C03).
    A visitor is an oracle that says, for each call, whether inference stops.  OPENGM_ASSERT is inactive. *)
From Verif Require Import Base Values GmView ShapeSpec FactorGraphModel.

(** utilities/tribool.hxx, line 11; the comparison of lines 112-120 and the conversion to bool of 132-135. *)
Inductive tribool := TTrue | TFalse | TMaybe.
Definition tri_bool (t : tribool) : bool := match t with TTrue => true | _ => false end.

(** ** messagepassing_buffer.hxx *)
Section Buffer.
Context {T : Type}.
(** The members, lines 42-44. *)
Record mbuf : Type := mkBuf { mb_flag : bool; mb_1 : list T; mb_2 : list T }.
(** Lines 141-159: current and old; [put] is an assignment to the entries of current(). *)
Definition current (b : mbuf) : list T := if mb_flag b then mb_1 b else mb_2 b.
Definition old (b : mbuf) : list T := if mb_flag b then mb_2 b else mb_1 b.
Definition put (b : mbuf) (a : list T) : mbuf :=
  if mb_flag b then mkBuf true a (mb_2 b) else mkBuf false (mb_1 b) a.
(** Lines 161-164. *)
Definition toggle (b : mbuf) : mbuf := mkBuf (negb (mb_flag b)) (mb_1 b) (mb_2 b).
(** Lines 54-55: no memory; the flag is not initialised (assign sets it before it is read). *)
Definition buf0 : mbuf := mkBuf false [] [].
(** marray.hxx 3818-3873, resize of an array of at most one dimension: entries that exist are kept. *)
Definition arr_resize (a : list T) (n : nat) (c : T) : list T := firstn n a ++ repeat c (n - length a).
(** Lines 100-117. *)
Definition buf_assign (b : mbuf) (shape : nat) (c : T) : mbuf :=
  if shape =? 0 then mkBuf false [c] [c] else mkBuf false (arr_resize (mb_1 b) shape c) (arr_resize (mb_2 b) shape c).
End Buffer.
Arguments mbuf : clear implicits.

Section Mp.
Variable T : Type.
Variable OP : oper T.
Variable ACC : accum T.
(** OP is Multiplier; v <= 0.00001. *)
Variable mult : bool.
Variable small : T -> bool.
(** weightedMean, messagepassing_operations_withFunctors.hxx 44-63, for one entry: damping, new and old value; damping != 0. *)
Variable wmean : T -> T -> T -> T.
Variable nonzero : T -> bool.
(** DIST::op, operator> and the number 0 of the value type, used by convergence(). *)
Variable dist : list T -> list T -> T.
Variable gtv : T -> T -> bool.
Variable zero : T.
Variable g : gmv T.

(** The queries of the graphical model (C12). *)
Definition nvars : nat := length (v_labels g).
Definition nfacs : nat := length (v_factors g).
Definition facs_of (v : nat) : list nat := v_adj T g v.
Definition fgraph_of : fgraph := mkFgraph (map fst (v_factors g)) (map facs_of (seq 0 nvars)).
(** The shape of a factor. *)
Definition fshape (fc : list nat * (list nat -> T)) : list nat := map (fun v => nth v (v_labels g) 0) (fst fc).

(** ** messagepassing_operations_withFunctors.hxx *)

(** Lines 25-42. *)
Definition normalize (out : list T) : list T :=
  let v := fold_left (fun v x => a_op ACC x v) out (a_neutral ACC) in
  if mult && small v then out else map (o_iop OP v) out.

(** Lines 65-81 and 107-129: clean, then the messages in the places [js], one after the other. *)
Definition operate (vec : list (mbuf T)) (js : list nat) (out : list T) : outcome (list T) :=
  foldM (fun out j =>
           b <- rd vec j ;;
           mapM (fun n => x <- rd (current b) n ;; o <- rd out n ;; Ret (o_op OP x o)) (seq 0 (length out)))
        js (repeat (o_neutral OP) (length out)).

(** All places of a vector of [n] buffers except [i]. *)
Definition others (n i : nat) : list nat := seq 0 i ++ seq (S i) (n - S i).

(** The values of the messages in the places [js] at the labels [c], applied to [value]. *)
Definition with_messages (vec : list (mbuf T)) (c js : list nat) (value : T) : outcome T :=
  foldM (fun value j => label <- rd c j ;; b <- rd vec j ;; x <- rd (current b) label ;; Ret (o_op OP x value)) js value.

(** ACC::op(value, out(l)). *)
Definition accumulate_at (out : list T) (l : nat) (value : T) : outcome (list T) :=
  o <- rd out l ;; wr out l (a_op ACC value o).

(** Lines 171-257: the message from a factor to its [i]-th variable. *)
Definition operateF (fc : list nat * (list nat -> T)) (vec : list (mbuf T)) (i : nat) (out : list T) : outcome (list T) :=
  let shape := fshape fc in
  if length shape =? 2 then
    let out := repeat (a_neutral ACC) (length out) in
    foldM (fun out c0 =>
      foldM (fun out c1 =>
        let v := snd fc [c0; c1] in
        if i =? 0 then
          b <- rd vec 1 ;; x <- rd (current b) c1 ;; accumulate_at out c0 (o_op OP x v)
        else
          b <- rd vec 0 ;; x <- rd (current b) c0 ;; accumulate_at out c1 (o_op OP x v))
        (seq 0 (nth 1 shape 0)) out)
      (seq 0 (nth 0 shape 0)) out
  else
    n <- rd shape i ;;
    out <- foldM (fun out n => wr out n (a_neutral ACC)) (seq 0 n) out ;;
    foldM (fun out k =>
      let c := coord_of shape k in
      value <- with_messages vec c (others (length vec) i) (snd fc c) ;;
      l <- rd c i ;; accumulate_at out l value)
      (seq 0 (size_of shape)) out.

(** Lines 319-358: the values of the marginal of a factor. *)
Definition operateF2 (fc : list nat * (list nat -> T)) (vec : list (mbuf T)) : outcome (list T) :=
  let shape := fshape fc in
  mapM (fun k => let c := coord_of shape k in with_messages vec c (seq 0 (length vec)) (snd fc c)) (seq 0 (size_of shape)).

(** ** messagepassing_bp.hxx: the hulls *)
Notation ptr := (option (nat * nat))%type.
(** For each variable and for each factor: inBuffer_ and outBuffer_; the two parameters that infer changes. *)
Record mp : Type := mkMp {
  m_vin : list (list (mbuf T)); m_vout : list (list ptr);
  m_fin : list (list (mbuf T)); m_fout : list (list ptr);
  m_acyclic : tribool; m_norm : tribool }.

Definition vec_resize {A : Type} (l : list A) (n : nat) (a : A) : list A := firstn n l ++ repeat a (n - length l).
Definition rd2 {A : Type} (m : list (list A)) (i j : nat) : outcome A := row <- rd m i ;; rd row j.
Definition wr2 {A : Type} (m : list (list A)) (i j : nat) (a : A) : outcome (list (list A)) :=
  row <- rd m i ;; row <- wr row j a ;; wr m i row.

(** Lines 111-124: VariableHullBP::assign. *)
Definition vhull_assign (s : mp) (v : nat) : outcome mp :=
  let n := length (facs_of v) in
  bs <- rd (m_vin s) v ;; ps <- rd (m_vout s) v ;;
  labels <- rd (v_labels g) v ;;
  let bs := map (fun b => buf_assign b labels (o_neutral OP)) (vec_resize bs n buf0) in
  vin <- wr (m_vin s) v bs ;; vout <- wr (m_vout s) v (vec_resize ps n None) ;;
  Ret (mkMp vin vout (m_fin s) (m_fout s) (m_acyclic s) (m_norm s)).

(** Lines 260-266: the first place of factor [f] among the factors of a variable; 1000000 if there is none. *)
Fixpoint buffer_number (fs : list nat) (f i : nat) : option nat :=
  match fs with
  | [] => None
  | x :: fs => if x =? f then Some i else buffer_number fs f (S i)
  end.

(** Lines 246-269: FactorHullBP::assign; connectFactorHullBP, 131-140. *)
Definition fhull_assign (s : mp) (f : nat) : outcome mp :=
  fc <- rd (v_factors g) f ;;
  let n := length (fst fc) in
  bs <- rd (m_fin s) f ;; ps <- rd (m_fout s) f ;;
  fin <- wr (m_fin s) f (vec_resize bs n buf0) ;; fout <- wr (m_fout s) f (vec_resize ps n None) ;;
  foldM (fun s k =>
    v <- rd (fst fc) k ;;
    labels <- rd (v_labels g) v ;;
    b <- rd2 (m_fin s) f k ;;
    fin <- wr2 (m_fin s) f k (buf_assign b labels (o_neutral OP)) ;;
    match buffer_number (facs_of v) f 0 with
    | None => Undef (* 1000000 is used as a place *)
    | Some i =>
        vout <- wr2 (m_vout s) v i (Some (f, k)) ;;
        fout <- wr2 (m_fout s) f k (Some (v, i)) ;;
        Ret (mkMp (m_vin s) vout fin fout (m_acyclic s) (m_norm s))
    end) (seq 0 n) (mkMp (m_vin s) (m_vout s) fin fout (m_acyclic s) (m_norm s)).

(** messagepassing.hxx 195-203, 220-228: the hulls of all variables, then those of all factors. *)
Definition assign_hulls (s : mp) : outcome mp :=
  let s := mkMp (vec_resize (m_vin s) nvars []) (vec_resize (m_vout s) nvars [])
                (vec_resize (m_fin s) nfacs []) (vec_resize (m_fout s) nfacs []) (m_acyclic s) (m_norm s) in
  s <- foldM vhull_assign (seq 0 nvars) s ;;
  foldM fhull_assign (seq 0 nfacs) s.

(** messagepassing.hxx 178-204 and 207-229. *)
Definition mp_new (acyclic norm : tribool) : outcome mp := assign_hulls (mkMp [] [] [] [] acyclic norm).
Definition mp_reset (s : mp) : outcome mp := assign_hulls s.

(** Lines 159-167 and 283-291: damping and normalization of a new message. *)
Definition finish (b : mbuf T) (a : list T) (damping : T) (useNormalization : bool) : outcome (mbuf T) :=
  a <- (if nonzero damping then
          mapM (fun n => x <- rd a n ;; y <- rd (old b) n ;; Ret (wmean damping x y)) (seq 0 (length a))
        else Ret a) ;;
  Ret (put b (if useNormalization then normalize a else a)).

(** Lines 142-168: VariableHullBP::propagate. *)
Definition vhull_propagate (v i : nat) (damping : T) (useNormalization : bool) (s : mp) : outcome mp :=
  p <- rd2 (m_vout s) v i ;;
  match p with
  | None => Undef
  | Some (f, k) =>
      b <- rd2 (m_fin s) f k ;;
      let b := toggle b in
      vec <- rd (m_vin s) v ;;
      b <- (if length vec <? 2 then Ret b
            else a <- operate vec (others (length vec) i) (current b) ;; finish b a damping useNormalization) ;;
      fin <- wr2 (m_fin s) f k b ;;
      Ret (mkMp (m_vin s) (m_vout s) fin (m_fout s) (m_acyclic s) (m_norm s))
  end.

(** Lines 271-292: FactorHullBP::propagate. *)
Definition fhull_propagate (f i : nat) (damping : T) (useNormalization : bool) (s : mp) : outcome mp :=
  p <- rd2 (m_fout s) f i ;;
  match p with
  | None => Undef
  | Some (v, k) =>
      b <- rd2 (m_vin s) v k ;;
      let b := toggle b in
      fc <- rd (v_factors g) f ;;
      vec <- rd (m_fin s) f ;;
      a <- operateF fc vec i (current b) ;;
      b <- finish b a damping useNormalization ;;
      vin <- wr2 (m_vin s) v k b ;;
      Ret (mkMp vin (m_vout s) (m_fin s) (m_fout s) (m_acyclic s) (m_norm s))
  end.

(** Lines 171-181 and 294-303: propagateAll. *)
Definition vhull_propagateAll (v : nat) (damping : T) (s : mp) : outcome mp :=
  row <- rd (m_vout s) v ;;
  foldM (fun s i => vhull_propagate v i damping false s) (seq 0 (length row)) s.
Definition fhull_propagateAll (f : nat) (damping : T) (useNormalization : bool) (s : mp) : outcome mp :=
  row <- rd (m_fin s) f ;;
  foldM (fun s i => fhull_propagate f i damping useNormalization s) (seq 0 (length row)) s.

(** Lines 183-200 and messagepassing.hxx 554-564: the marginal of a variable. *)
Definition mp_marginal (s : mp) (v : nat) : outcome (list T) :=
  vec <- rd (m_vin s) v ;;
  labels <- rd (v_labels g) v ;;
  out <- operate vec (seq 0 (length vec)) (repeat (o_neutral OP) labels) ;;
  Ret (if tri_bool (m_norm s) then normalize out else out).

(** Lines 305-317 and messagepassing.hxx 566-578: the marginal of a factor that has variables, values in the order of
    the coordinates, first variable fastest. *)
Definition mp_factorMarginal (s : mp) (f : nat) : outcome (list T) :=
  fc <- rd (v_factors g) f ;;
  vec <- rd (m_fin s) f ;;
  out <- operateF2 fc vec ;;
  Ret (if tri_bool (m_norm s) then normalize out else out).

(** ** messagepassing.hxx: inference *)
Variable stop : nat -> bool.

(** The local variables of inferAcyclic, lines 315-323; the back of a vector is the head of a list.  The counters are
    integers: -1 stands for the largest size_t, which --counter makes of 0. *)
Record sched : Type := mkSched {
  c_mp : mp; c_cv : list (list Z); c_cf : list (list Z);
  c_rv : list (nat * nat); c_rf : list (nat * nat) }.

(** Lines 324-332. *)
Definition counters_f : list (list Z) :=
  map (fun fc => repeat (Z.of_nat (length (fst fc)) - 1)%Z (length (fst fc))) (v_factors g).
Definition counters_v : list (list Z) :=
  map (fun v => repeat (Z.of_nat (length (facs_of v)) - 1)%Z (length (facs_of v))) (seq 0 nvars).

(** Lines 333-349: decrement the counters that are 0 and push their messages. *)
Definition find_ready (cs : list (list Z)) : outcome (list (list Z) * list (nat * nat)) :=
  foldM (fun st x =>
    row <- rd cs x ;;
    foldM (fun (st : list (list Z) * list (nat * nat)) i =>
      c <- rd2 (fst st) x i ;;
      if (c =? 0)%Z then cs <- wr2 (fst st) x i (c - 1)%Z ;; Ret (cs, (x, i) :: snd st) else Ret st)
      (seq 0 (length row)) st)
    (seq 0 (length cs)) (cs, []).

(** Lines 360-366 and 376-382: --counter[x][i] for all places whose entry is not [from]; a counter that becomes 0
    pushes its message. *)
Definition notify (x from : nat) (entries : list nat) (cs : list (list Z)) (ready : list (nat * nat))
    : outcome (list (list Z) * list (nat * nat)) :=
  foldM (fun (st : list (list Z) * list (nat * nat)) i =>
    y <- rd entries i ;;
    if negb (y =? from) then
      c <- rd2 (fst st) x i ;;
      cs <- wr2 (fst st) x i (c - 1)%Z ;;
      Ret (cs, if (c - 1 =? 0)%Z then (x, i) :: snd st else snd st)
    else Ret st)
    (seq 0 (length entries)) (cs, ready).

(** Lines 352-367. *)
Fixpoint send_vars (fuel : nat) (st : sched) : outcome sched :=
  match c_rv st with
  | [] => Ret st
  | (v, i) :: rest =>
    match fuel with
    | 0 => Diverge
    | S fuel =>
      f <- rd (facs_of v) i ;;
      s <- vhull_propagate v i zero false (c_mp st) ;;
      fc <- rd (v_factors g) f ;;
      ' (cf, rf) <- notify f v (fst fc) (c_cf st) (c_rf st) ;;
      send_vars fuel (mkSched s (c_cv st) cf rest rf)
    end
  end.

(** Lines 368-383. *)
Fixpoint send_facs (fuel : nat) (st : sched) : outcome sched :=
  match c_rf st with
  | [] => Ret st
  | (f, i) :: rest =>
    match fuel with
    | 0 => Diverge
    | S fuel =>
      fc <- rd (v_factors g) f ;;
      v <- rd (fst fc) i ;;
      s <- fhull_propagate f i zero (tri_bool (m_norm (c_mp st))) (c_mp st) ;;
      ' (cv, rv) <- notify v f (facs_of v) (c_cv st) (c_rv st) ;;
      send_facs fuel (mkSched s cv (c_cf st) rv rest)
    end
  end.

(** Lines 350-386. *)
Fixpoint send_all (fuel0 fuel calls : nat) (st : sched) : outcome sched :=
  if (length (c_rv st) =? 0) && (length (c_rf st) =? 0) then Ret st
  else
    match fuel with
    | 0 => Diverge
    | S fuel =>
      st <- send_vars fuel0 st ;;
      st <- send_facs fuel0 st ;;
      if stop calls then Ret st else send_all fuel0 fuel (S calls) st
    end.

(** The number of edges between variables and factors bounds the messages in each direction. *)
Definition edges : nat := list_sum (map (fun fc => length (fst fc)) (v_factors g)).

(** Lines 303-389. *)
Definition inferAcyclic (s : mp) : outcome mp :=
  ' (cv, rv) <- find_ready counters_v ;;
  ' (cf, rf) <- find_ready counters_f ;;
  st <- send_all (S edges) (S (edges + edges)) 0 (mkSched s cv cf rv rf) ;;
  Ret (c_mp st).

(** The parameters of the two other schedules. *)
Variable maximumNumberOfSteps : nat.
Variables bound damping : T.
Variable inferSequential_ : bool.
(** The parameter after the constructor, lines 187-191 (not empty unless the model is). *)
Variable sortedNodeList : list nat.

(** Lines 580-594: convergenceXF; 612-617: convergence. *)
Definition convergence (s : mp) : T :=
  fold_left (fun r row => fold_left (fun r b => let d := dist (mb_1 b) (mb_2 b) in if gtv d r then d else r) row r)
            (m_fin s) zero.

(** Lines 425-431 and 491-497: the factors of order less than two. *)
Definition low_order (s : mp) : outcome mp :=
  foldM (fun s f =>
    row <- rd (m_fin s) f ;;
    if length row <? 2 then
      s <- fhull_propagateAll f zero (tri_bool (m_norm s)) s ;; fhull_propagateAll f zero (tri_bool (m_norm s)) s
    else Ret s) (seq 0 (length (m_fin s))) s.

(** Lines 432-446 and 515-550: the loop over the steps. *)
Fixpoint steps (body : nat -> mp -> outcome mp) (rem n : nat) (s : mp) : outcome mp :=
  match rem with
  | 0 => Ret s
  | S rem =>
      s <- body n s ;;
      if stop n then Ret s
      else if gtv bound (convergence s) then Ret s
      else steps body rem (S n) s
  end.

(** Lines 433-439. *)
Definition parallel_step (_ : nat) (s : mp) : outcome mp :=
  s <- foldM (fun s v => vhull_propagateAll v damping s) (seq 0 (length (m_vin s))) s ;;
  foldM (fun s f =>
    row <- rd (m_fin s) f ;;
    if 2 <=? length row then fhull_propagateAll f damping (tri_bool (m_norm s)) s else Ret s)
    (seq 0 (length (m_fin s))) s.
Definition inferParallel (s : mp) : outcome mp := s <- low_order s ;; steps parallel_step maximumNumberOfSteps 0 s.

(** Lines 499-511: the place of the variable in each of its factors. *)
Definition inverse_positions (v : nat) : outcome (list nat) :=
  rows <- mapM (fun f => fc <- rd (v_factors g) f ;;
                  Ret (match buffer_number (fst fc) v 0 with Some j => [j] | None => [] end)) (facs_of v) ;;
  Ret (concat rows).
(** Lines 519-528 and 533-541. *)
Definition sequential_variable (inv : list (list nat)) (s : mp) (v : nat) : outcome mp :=
  s <- foldM (fun s i =>
         f <- rd (facs_of v) i ;; j <- rd2 inv v i ;;
         fhull_propagate f j damping (tri_bool (m_norm s)) s) (seq 0 (length (facs_of v))) s ;;
  vhull_propagateAll v damping s.
Definition sequential_step (inv : list (list nat)) (n : nat) (s : mp) : outcome mp :=
  order <- mapM (fun o => rd sortedNodeList (if Nat.even n then o else nvars - 1 - o)) (seq 0 nvars) ;;
  foldM (sequential_variable inv) order s.
(** Lines 474-552; the array nodeOrder of lines 485-489 is written but never read and is not modelled. *)
Definition inferSequential (s : mp) : outcome mp :=
  s <- low_order s ;;
  inv <- mapM inverse_positions (seq 0 nvars) ;;
  steps (sequential_step inv) maximumNumberOfSteps 0 s.

(** Lines 250-283. *)
Definition set_params (s : mp) (a n : tribool) : mp := mkMp (m_vin s) (m_vout s) (m_fin s) (m_fout s) a n.
Definition no_maybe (t : tribool) : tribool := match t with TMaybe => TFalse | _ => t end.
Definition mp_infer (s : mp) : outcome mp :=
  match m_acyclic s with
  | TTrue => inferAcyclic (set_params s TTrue (no_maybe (m_norm s)))
  | TFalse => if inferSequential_ then inferSequential s else inferParallel s
  | TMaybe =>
      b <- isAcyclic fgraph_of ;;
      if b : bool then inferAcyclic (set_params s TTrue (no_maybe (m_norm s)))
      else let s := set_params s TFalse (m_norm s) in
           if inferSequential_ then inferSequential s else inferParallel s
  end.
End Mp.
Arguments m_vin {T}. Arguments m_vout {T}. Arguments m_fin {T}. Arguments m_fout {T}. Arguments m_acyclic {T}. Arguments m_norm {T}. Arguments mkMp {T}.
