(** Model of opengm::GraphicalModel and opengm::Factor
    (include/opengm/graphicalmodel/graphicalmodel.hxx, graphicalmodel_factor.hxx,
    graphicalmodel_function_wrapper.hxx, include/opengm/utilities/vector_view.hxx).

    Models are objects in a heap: an address is the number of an object, [None] is an object that has
    been destroyed.  Factors hold, as in the code, a pointer to a model and a view into the
    vector of variable indices of a model, so that a wrong or dangling pointer is visible.
    The label space is the default DiscreteSpace (see SpacesModel.v).  Function objects are
    pairs of a shape and a value for every coordinate; the C++ type of a function is the
    number of the list in which it is stored (its position in the type list).
    Indices are size_t, modelled by [nat]; OPENGM_ASSERTs are not modelled. *)
From Verif Require Import Base Values RandomAccessSetModel.

Section GM.
Variable T : Type.

(** A function object: shape and value at each coordinate. *)
Record func : Type := mkFunc { f_shape : list nat; f_call : list nat -> T }.
Definition f_dim (f : func) : nat := length (f_shape f).

(** Calling a function with an iterator into a buffer: it reads [f_dim f] labels. *)
Definition call (f : func) (buf : list nat) : outcome T :=
  if f_dim f <=? length buf then Ret (f_call f (firstn (f_dim f) buf)) else Undef.

(** graphicalmodel_factor.hxx 229-235: gm_, functionIndex_, functionTypeId_, vis_;
    vector_view.hxx 87-89: the view's vectorPtr_ (the factorsVis_ of the object at [fc_vptr]), start_, size_. *)
Record factor : Type := mkFactor {
  fc_gm : nat; fc_findex : nat; fc_ftype : nat;
  fc_vptr : nat; fc_start : nat; fc_size : nat }.

(** graphicalmodel.hxx 185-190 (space_, functionDataField_, variableFactorAdjaceny_, factors_,
    factorsVis_, order_). *)
Record gm : Type := mkGM {
  gm_space : list nat; gm_funs : list (list func); gm_adj : list (list nat);
  gm_factors : list factor; gm_vis : list nat; gm_order : nat }.

Definition heap : Type := list (option gm).

Definition deref (h : heap) (a : nat) : outcome gm :=
  match nth_error h a with Some (Some g) => Ret g | _ => Undef end.

Definition store (h : heap) (a : nat) (g : gm) : heap := upd h a (Some g).

(** ** Queries *)

(** graphicalmodel.hxx 399-404, 406-416, 430-435, 501-518. *)
Definition numberOfVariables (g : gm) : nat := length (gm_space g).
Definition numberOfLabels (g : gm) (v : nat) : outcome nat := rd (gm_space g) v.
Definition numberOfFactors (g : gm) : nat := length (gm_factors g).
Definition factorOrder (g : gm) : nat := gm_order g.

(** graphicalmodel_factor.hxx 529-534 and 536-544; vector_view.hxx 75-80 (no bounds check). *)
Definition fc_numberOfVariables (fc : factor) : nat := fc_size fc.
Definition fc_variableIndex (h : heap) (fc : factor) (j : nat) : outcome nat :=
  g <- deref h (fc_vptr fc) ;; rd (gm_vis g) (fc_start fc + j).

(** graphicalmodel_factor.hxx 546-555, shape(j) = numberOfLabels(j) (519-527). *)
Definition fc_numberOfLabels (h : heap) (fc : factor) (j : nat) : outcome nat :=
  v <- fc_variableIndex h fc j ;; g <- deref h (fc_gm fc) ;; numberOfLabels g v.

(** graphicalmodel_factor.hxx 930-942, size(). *)
Definition fc_sizeof (h : heap) (fc : factor) : outcome nat :=
  if negb (fc_size fc =? 0) then
    s0 <- fc_numberOfLabels h fc 0 ;;
    foldM (fun val i => s <- fc_numberOfLabels h fc i ;; Ret (val * s)) (seq 1 (fc_size fc - 1)) s0
  else Ret 1.

(** graphicalmodel.hxx 243-308: numberOfFactors(v), numberOfVariables(f), variableOfFactor(f,k),
    factorOfVariable(v,k). *)
Definition numberOfFactorsOf (g : gm) (v : nat) : outcome nat := s <- rd (gm_adj g) v ;; Ret (length s).
Definition numberOfVariablesOf (g : gm) (f : nat) : outcome nat := fc <- rd (gm_factors g) f ;; Ret (fc_numberOfVariables fc).
Definition variableOfFactor (h : heap) (g : gm) (f k : nat) : outcome nat :=
  fc <- rd (gm_factors g) f ;; fc_variableIndex h fc k.
Definition factorOfVariable (g : gm) (v k : nat) : outcome nat := s <- rd (gm_adj g) v ;; rd s k.

(** The dispatch of FunctionWrapper<N> on a function type id, graphicalmodel_function_wrapper.hxx
    121-208 and 392-415 with the specialisations for one, two and at least three types: the result is
    the number of the list of functions that is used. *)
Definition dispatch (n t : nat) : outcome nat :=
  match n with
  | 0 => Undef
  | 1 => Ret 0
  | 2 => Ret (if t =? 0 then 0 else 1)
  | _ => if t <? 16 then Ret (Nat.min t (n - 1)) else if t <? n then Ret t else Throw
  end.

(** The dispatch used by binaryProperty and valueProperty, graphicalmodel_function_wrapper.hxx
    1371-1429 and 1431-1487: the branch for two types passes 1 and 2 instead of 0 and 1. *)
Definition property_dispatch (n t : nat) : outcome nat :=
  match n with
  | 0 => Undef
  | 1 => Ret 0
  | 2 => Ret (if t =? 0 then Nat.min 1 1 else Nat.min 2 1)
  | _ => if t <? 16 then Ret (Nat.min t (n - 1)) else if t <? n then Ret t else Throw
  end.

(** The function a factor refers to, as found by each of the two dispatches. *)
Definition fc_function_by (d : nat -> nat -> outcome nat) (h : heap) (fc : factor) : outcome func :=
  g <- deref h (fc_gm fc) ;;
  k <- d (length (gm_funs g)) (fc_ftype fc) ;;
  fs <- rd (gm_funs g) k ;;
  rd fs (fc_findex fc).
Definition fc_function : heap -> factor -> outcome func := fc_function_by dispatch.
Definition fc_property_function : heap -> factor -> outcome func := fc_function_by property_dispatch.

(** graphicalmodel_factor.hxx 557-569, operator()(begin). *)
Definition fc_value (h : heap) (fc : factor) (buf : list nat) : outcome T :=
  f <- fc_function h fc ;; call f buf.

(** graphicalmodel_factor.hxx 479-493, Factor::operator=: the pointer to the model is not assigned. *)
Definition fc_assign (dst src : factor) : factor :=
  mkFactor (fc_gm dst) (fc_findex src) (fc_ftype src) (fc_vptr src) (fc_start src) (fc_size src).

(** graphicalmodel.hxx 445-474, evaluate: one buffer is shared by all factors. *)
Variable OP : oper T.
Definition fill (h : heap) (fc : factor) (labels : list nat) (buf : list nat) : outcome (list nat) :=
  foldM (fun buf i =>
      v <- fc_variableIndex h fc i ;;
      l <- rd labels v ;;
      wr buf i l) (seq 0 (fc_size fc)) buf.
Definition eval_step (h : heap) (labels : list nat) (st : list nat * T) (fc : factor) : outcome (list nat * T) :=
  buf <- wr (fst st) 0 0 ;;
  buf' <- fill h fc labels buf ;;
  x <- fc_value h fc buf' ;;
  Ret (buf', o_op OP x (snd st)).
Definition evaluate (h : heap) (a : nat) (labels : list nat) : outcome T :=
  g <- deref h a ;;
  st <- foldM (eval_step h labels) (gm_factors g) (repeat 0 (S (factorOrder g)), o_neutral OP) ;;
  Ret (snd st).

(** graphicalmodel.hxx 476-499, isValidIndexSequence. *)
Fixpoint isValid_loop (n : nat) (prev : option nat) (l : list nat) : bool :=
  match l with
  | [] => true
  | x :: r =>
      if n <=? x then false
      else if (match prev with None => false | Some p => x <=? p end) then false
      else isValid_loop n (Some x) r
  end.
Definition isValidIndexSequence (g : gm) (l : list nat) : bool := isValid_loop (numberOfVariables g) None l.

(** ** Construction *)

(** graphicalmodel.hxx 310-320 and 349-372: [NT] is the length of the function type list. *)
Definition gm_new (NT : nat) (space : list nat) : gm :=
  mkGM space (repeat [] NT) (repeat [] (length space)) [] [] 0.

(** graphicalmodel.hxx 373-385. *)
Definition gm_addVariable (g : gm) (n : nat) : gm * nat :=
  (mkGM (gm_space g ++ [n]) (gm_funs g) (gm_adj g ++ [[]]) (gm_factors g) (gm_vis g) (gm_order g),
   length (gm_space g ++ [n]) - 1).

Definition set_funs (g : gm) (t : nat) (fs : list func) : gm :=
  mkGM (gm_space g) (upd (gm_funs g) t fs) (gm_adj g) (gm_factors g) (gm_vis g) (gm_order g).

(** graphicalmodel.hxx 520-550 (and 553-578): the identifier is (index, type). *)
Definition gm_addFunction (g : gm) (t : nat) (f : func) : outcome (gm * (nat * nat)) :=
  fs <- rd (gm_funs g) t ;;
  Ret (set_funs g t (fs ++ [f]), (length fs, t)).

(** graphicalmodel.hxx 581-617; [feqb] is operator== of the function type. *)
Variable feqb : func -> func -> bool.
Fixpoint find_equal (fs : list func) (f : func) (i : nat) : option nat :=
  match fs with
  | [] => None
  | g :: r => if feqb f g then Some i else find_equal r f (S i)
  end.
Definition gm_addSharedFunction (g : gm) (t : nat) (f : func) : outcome (gm * (nat * nat)) :=
  fs <- rd (gm_funs g) t ;;
  match find_equal fs f 0 with
  | Some i => Ret (g, (i, t))
  | None => Ret (set_funs g t (fs ++ [f]), (length fs, t))
  end.

(** Assignment through the reference returned by getFunction, graphicalmodel.hxx 634-649. *)
Definition gm_setFunction (g : gm) (i t : nat) (f : func) : outcome gm :=
  fs <- rd (gm_funs g) t ;;
  fs' <- wr fs i f ;;
  Ret (set_funs g t fs').

Definition adj_insert (adj : list (list nat)) (v fi : nat) : outcome (list (list nat)) :=
  s <- rd adj v ;;
  ' (s', _, _) <- ras_insert nat Nat.ltb s fi ;;
  wr adj v s'.

(** The loop of addFactor, graphicalmodel.hxx 682-692: checks and insertions are interleaved.
    The result is the adjacency reached and whether an exception ended the loop. *)
Fixpoint addFactor_loop (nv fi : nat) (ins : bool) (prev : option nat) (vis : list nat) (adj : list (list nat))
  : outcome (list (list nat) * bool) :=
  match vis with
  | [] => Ret (adj, false)
  | v :: r =>
      if (match prev with None => false | Some p => negb (p <? v) end) then Ret (adj, true)
      else if negb (v <? nv) then Ret (adj, true)
      else
        adj' <- (if ins then adj_insert adj v fi else Ret adj) ;;
        addFactor_loop nv fi ins (Some v) r adj'
  end.

(** graphicalmodel.hxx 653-696 ([ins] = true) and 701-750, addFactorNonFinalized ([ins] = false).
    [a] is the address of the model.  The vector of indices, the order and the factor are stored
    before anything is checked.  The returned flag tells whether an exception was thrown. *)
Definition gm_addFactor (a : nat) (ins : bool) (g : gm) (fid : nat * nat) (vis : list nat) : outcome (gm * bool) :=
  let fi := length (gm_factors g) in
  let fc := mkFactor a (fst fid) (snd fid) a (length (gm_vis g)) (length vis) in
  ' (adj, thrown) <- addFactor_loop (numberOfVariables g) fi ins None vis (gm_adj g) ;;
  Ret (mkGM (gm_space g) (gm_funs g) adj (gm_factors g ++ [fc]) (gm_vis g ++ vis)
            (Nat.max (gm_order g) (length vis)), thrown).

(** graphicalmodel.hxx 753-771, finalize; a std::set<IndexType> filled with increasing factor
    numbers is the list of the different numbers in order (assignFromSet,
    randomaccessset.hxx 110-113, copies it). *)
Definition set_insert (s : list nat) (x : nat) : list nat :=
  if existsb (Nat.eqb x) s then s else s ++ [x].
Definition gm_finalize (h : heap) (g : gm) : outcome gm :=
  adj <- foldM (fun adj fi =>
             fc <- rd (gm_factors g) fi ;;
             foldM (fun adj k =>
                 vi <- fc_variableIndex h fc k ;;
                 s <- rd adj vi ;;
                 wr adj vi (set_insert s fi)) (seq 0 (fc_size fc)) adj)
           (seq 0 (numberOfFactors g)) (repeat [] (numberOfVariables g)) ;;
  adj' <- foldM (fun cur vi => s <- rd adj vi ;; wr cur vi s) (seq 0 (numberOfVariables g)) (gm_adj g) ;;
  Ret (mkGM (gm_space g) (gm_funs g) adj' (gm_factors g) (gm_vis g) (gm_order g)).

(** graphicalmodel.hxx 322-345 (copy constructor) and 774-798 (operator=): the object at
    address [a] becomes a copy of [g]; every factor is re-pointed to [a]. *)
Definition repoint (a : nat) (fc : factor) : factor :=
  mkFactor a (fc_findex fc) (fc_ftype fc) a (fc_start fc) (fc_size fc).
Definition gm_copy (a : nat) (g : gm) : gm :=
  mkGM (gm_space g) (gm_funs g) (gm_adj g) (map (repoint a) (gm_factors g)) (gm_vis g) (gm_order g).

(** Assignment from a model with another type list, graphicalmodel.hxx 801-835 and
    graphicalmodel_function_wrapper.hxx 43-114.  [tmap] tells for each source type its position in
    the target list, if it has one.  A non-empty list of functions of a type the target does not
    have makes the CHECK throw (the target then has already changed: the flag reports the exception
    and [a] is left with the new space and some of the functions). *)
Fixpoint copyFunctions (tmap : list (option nat)) (src : list (list func)) (dst : list (list func))
  : outcome (list (list func) * bool) :=
  match tmap, src with
  | [], [] => Ret (dst, false)
  | m :: tm, fs :: sr =>
      match m with
      | Some k => dst' <- wr dst k fs ;; copyFunctions tm sr dst'
      | None => if length fs =? 0 then copyFunctions tm sr dst else Ret (dst, true)
      end
  | _, _ => Undef
  end.
Definition retype (a : nat) (tmap : list (option nat)) (fc : factor) : outcome (option factor) :=
  m <- rd tmap (fc_ftype fc) ;;
  match m with
  | Some k => Ret (Some (mkFactor a (fc_findex fc) k a (fc_start fc) (fc_size fc)))
  | None => Ret None
  end.
Fixpoint retype_all (a : nat) (tmap : list (option nat)) (fcs : list factor) : outcome (option (list factor)) :=
  match fcs with
  | [] => Ret (Some [])
  | fc :: r =>
      o <- retype a tmap fc ;;
      match o with
      | None => Ret None
      | Some fc' =>
          o' <- retype_all a tmap r ;;
          Ret (match o' with None => None | Some r' => Some (fc' :: r') end)
      end
  end.
Definition gm_crossAssign (a : nat) (tmap : list (option nat)) (src dst : gm) : outcome (gm * bool) :=
  ' (funs, thrown) <- copyFunctions tmap (gm_funs src) (gm_funs dst) ;;
  if thrown then
    Ret (mkGM (gm_space src) funs (gm_adj dst) (gm_factors dst) (gm_vis dst) (gm_order dst), true)
  else
    o <- retype_all a tmap (gm_factors src) ;;
    match o with
    | None => Undef (* unreachable when all source functions were copied: the CHECK "INTERNAL ERROR" *)
    | Some fcs => Ret (mkGM (gm_space src) funs (gm_adj src) fcs (gm_vis src) (gm_order src), false)
    end.

(** ** Histories of calls *)
Inductive gop : Type :=
| GNew (NT : nat) (space : list nat)
| GAddVariable (a n : nat)
| GAddFunction (a t : nat) (f : func)
| GAddSharedFunction (a t : nat) (f : func)
| GSetFunction (a i t : nat) (f : func)
| GAddFactor (a i t : nat) (vis : list nat)
| GAddFactorNonFinalized (a i t : nat) (vis : list nat)
| GFinalize (a : nat)
| GCopy (a : nat)
| GAssign (a b : nat)
| GAssignSpace (a : nat) (space : list nat)
| GCrossAssign (a b : nat) (tmap : list (option nat))
| GDestroy (a : nat).

Inductive gresp : Type := GDone | GIndex (n : nat) | GFid (i t : nat) | GThrown.

Definition gstep (h : heap) (o : gop) : outcome (heap * gresp) :=
  match o with
  | GNew NT space => Ret (h ++ [Some (gm_new NT space)], GIndex (length h))
  | GAddVariable a n =>
      g <- deref h a ;; let '(g', v) := gm_addVariable g n in Ret (store h a g', GIndex v)
  | GAddFunction a t f =>
      g <- deref h a ;; ' (g', (i, t')) <- gm_addFunction g t f ;; Ret (store h a g', GFid i t')
  | GAddSharedFunction a t f =>
      g <- deref h a ;; ' (g', (i, t')) <- gm_addSharedFunction g t f ;; Ret (store h a g', GFid i t')
  | GSetFunction a i t f =>
      g <- deref h a ;; g' <- gm_setFunction g i t f ;; Ret (store h a g', GDone)
  | GAddFactor a i t vis =>
      g <- deref h a ;; ' (g', thrown) <- gm_addFactor a true g (i, t) vis ;;
      Ret (store h a g', if thrown then GThrown else GIndex (length (gm_factors g)))
  | GAddFactorNonFinalized a i t vis =>
      g <- deref h a ;; ' (g', thrown) <- gm_addFactor a false g (i, t) vis ;;
      Ret (store h a g', if thrown then GThrown else GIndex (length (gm_factors g)))
  | GFinalize a => g <- deref h a ;; g' <- gm_finalize h g ;; Ret (store h a g', GDone)
  | GCopy a => g <- deref h a ;; Ret (h ++ [Some (gm_copy (length h) g)], GIndex (length h))
  | GAssign a b =>
      g <- deref h a ;; g' <- deref h b ;;
      if a =? b then Ret (h, GDone) else Ret (store h a (gm_copy a g'), GDone)
  | GAssignSpace a space =>
      g <- deref h a ;; Ret (store h a (gm_copy a (gm_new (length (gm_funs g)) space)), GDone)
  | GCrossAssign a b tmap =>
      g <- deref h a ;; g' <- deref h b ;;
      ' (r, thrown) <- gm_crossAssign a tmap g' g ;;
      Ret (store h a r, if thrown then GThrown else GDone)
  | GDestroy a => g <- deref h a ;; Ret (upd h a None, GDone)
  end.

Definition grun_step (st : heap * list gresp) (o : gop) : outcome (heap * list gresp) :=
  ' (h', r) <- gstep (fst st) o ;; Ret (h', snd st ++ [r]).
Definition grun (ops : list gop) : outcome (heap * list gresp) := foldM grun_step ops ([], []).
End GM.

Arguments mkFunc {T}. Arguments f_shape {T}. Arguments f_call {T}. Arguments f_dim {T}.
Arguments mkGM {T}. Arguments gm_space {T}. Arguments gm_funs {T}. Arguments gm_adj {T}.
Arguments gm_factors {T}. Arguments gm_vis {T}. Arguments gm_order {T}.
