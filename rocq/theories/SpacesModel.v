(** Model of the label spaces, include/opengm/graphicalmodel/space/*.hxx, and of
    FunctionIdentification, include/opengm/graphicalmodel/graphicalmodel.hxx 223-240, 866-937.
    IndexType and LabelType are the default std::size_t: numbers are [N], and the two increments /
    products that can wrap are taken modulo 2^64.  A std::vector never holds 2^64 elements, so its
    length is not wrapped.  OPENGM_ASSERTs (debug builds only) are not modelled. *)
From Coq Require Import NArith.
From Verif Require Import Base.
Open Scope N_scope.

Definition w64 (x : N) : N := x mod 2 ^ 64.

Definition rdN {A : Type} (l : list A) (i : N) : outcome A := rd l (N.to_nat i).

(** The spaces.  [Discrete]: discretespace.hxx 33 (numbersOfLabels_).  [Simple]:
    simplediscretespace.hxx 30-31.  [Grid]: grid_space.hxx 32-34.  [VectorView]:
    vector_view_space.hxx 33, a pointer to a vector owned by somebody else ([None] is NULL).
    [View]: viewspace.hxx 34, a pointer to the space of a model ([None] is NULL).
    [StaticSimple]: static_simplediscretespace.hxx 31 with the template parameter LABELS. *)
Inductive space : Type :=
| Discrete (numbersOfLabels : list N)
| Simple (numberOfVariables numberOfLabels : N)
| Grid (dimX dimY numberOfStates : N)
| StaticSimple (labels numberOfVariables : N)
| VectorView (numbersOfLabels : option (list N))
| View (src : option space).

(** discretespace.hxx 36-41, simplediscretespace.hxx 34-39, grid_space.hxx 37-43: constructors
    without arguments. *)
Definition discrete0 : space := Discrete [].
Definition simple0 : space := Simple 0 0.
Definition grid0 : space := Grid 0 0 0.

(** numberOfVariables: discretespace.hxx 114-119, simplediscretespace.hxx 94-98,
    grid_space.hxx 71-75 (a product that wraps), static_simplediscretespace.hxx 85-89,
    vector_view_space.hxx 61-66, viewspace.hxx 69-75.  A NULL pointer is dereferenced. *)
Fixpoint numberOfVariables (s : space) : outcome N :=
  match s with
  | Discrete ls => Ret (N.of_nat (length ls))
  | Simple nv _ => Ret nv
  | Grid x y _ => Ret (w64 (x * y))
  | StaticSimple _ nv => Ret nv
  | VectorView (Some ls) => Ret (N.of_nat (length ls))
  | VectorView None => Undef
  | View (Some s') => numberOfVariables s'
  | View None => Undef
  end.

(** numberOfLabels: discretespace.hxx 121-129, simplediscretespace.hxx 100-107, grid_space.hxx
    95-102, static_simplediscretespace.hxx 91-97 (the text there, [static_cast<L> LABELS], lacks
    the parentheses and is not C++; it is read as [static_cast<L>(LABELS)]),
    vector_view_space.hxx 68-76, viewspace.hxx 77-86. *)
Fixpoint numberOfLabels (s : space) (i : N) : outcome N :=
  match s with
  | Discrete ls => rdN ls i
  | Simple _ nl => Ret nl
  | Grid _ _ nl => Ret nl
  | StaticSimple nl _ => Ret nl
  | VectorView (Some ls) => rdN ls i
  | VectorView None => Undef
  | View (Some s') => numberOfLabels s' i
  | View None => Undef
  end.

(** A call that changes a space either returns a value or throws; in both cases the space
    it leaves behind is visible to the caller. *)
Inductive response : Type := Done | Index (i : N) | Thrown.

(** addVariable: discretespace.hxx 102-112; simplediscretespace.hxx 81-92; GridSpace inherits
    space_base.hxx 51-59, which throws; static_simplediscretespace.hxx 74-83 does not return a value
    (flowing off the end of a non-void function is undefined) and does not count the variable;
    vector_view_space.hxx 53-59 throws; viewspace.hxx 60-67 constructs an exception without throwing
    it and then flows off the end. *)
Definition addVariable (s : space) (n : N) : outcome (space * response) :=
  match s with
  | Discrete ls => Ret (Discrete (ls ++ [n]), Index (N.of_nat (length ls)))
  | Simple nv nl =>
      if negb (n =? nl) then Ret (s, Thrown)
      else Ret (Simple (w64 (nv + 1)) nl, Index nv)
  | Grid _ _ _ => Ret (s, Thrown)
  | StaticSimple l _ => if negb (n =? l) then Ret (s, Thrown) else Undef
  | VectorView _ => Ret (s, Thrown)
  | View _ => Undef
  end.

(** assignDense: discretespace.hxx 91-100 (= assign, 69-79); simplediscretespace.hxx 52-68, which
    reads [*begin] first and overwrites both members before it checks;
    static_simplediscretespace.hxx 48-64; the other spaces inherit space_base.hxx 40-49. *)
Definition assignDense (s : space) (ls : list N) : outcome (space * response) :=
  match s with
  | Discrete _ => Ret (Discrete ls, Done)
  | Simple _ _ =>
      l0 <- rd ls 0 ;;
      let s' := Simple (N.of_nat (length ls)) l0 in
      if forallb (fun l => l0 =? l) ls then Ret (s', Done) else Ret (s', Thrown)
  | StaticSimple lab _ =>
      l0 <- rd ls 0 ;;
      let s' := StaticSimple lab l0 in
      if forallb (fun l => lab =? l) ls then Ret (s', Done) else Ret (s', Thrown)
  | _ => Ret (s, Thrown)
  end.

(** SimpleDiscreteSpace::assign and the two-argument constructor, simplediscretespace.hxx 41-50,
    70-79; GridSpace::assign and the three-argument constructor, grid_space.hxx 45-69. *)
Definition simple_assign (nv nl : N) : space := Simple nv nl.
Definition grid_assign (x y nl : N) : space := Grid x y nl.

(** The loop of SpaceBase::isSimpleSpace, space_base.hxx 32-37. *)
Fixpoint isSimple_loop (s : space) (l : N) (k : nat) (i : N) : outcome bool :=
  match k with
  | O => Ret true
  | S k' =>
      li <- numberOfLabels s i ;;
      if negb (l =? li) then Ret false else isSimple_loop s l k' (i + 1)
  end.

(** isSimpleSpace: space_base.hxx 27-38, overridden in simplediscretespace.hxx 109-113,
    static_simplediscretespace.hxx 99-104 and grid_space.hxx 104-108. *)
Definition isSimpleSpace (s : space) : outcome bool :=
  match s with
  | Simple _ _ | StaticSimple _ _ | Grid _ _ _ => Ret true
  | _ =>
      nv <- numberOfVariables s ;;
      l <- numberOfLabels s 0 ;;
      isSimple_loop s l (N.to_nat nv - 1) 1
  end.

(** The calls a client makes on a DiscreteSpace or SimpleDiscreteSpace. *)
Inductive space_op : Type :=
| OAdd (n : N)
| OAssignDense (ls : list N).

Definition space_step (st : space * list response) (o : space_op) : outcome (space * list response) :=
  match o with
  | OAdd n => ' (s', r) <- addVariable (fst st) n ;; Ret (s', snd st ++ [r])
  | OAssignDense ls => ' (s', r) <- assignDense (fst st) ls ;; Ret (s', snd st ++ [r])
  end.

Definition space_run (ops : list space_op) (s : space) : outcome (space * list response) :=
  foldM space_step ops (s, []).

(** * Function identifiers, graphicalmodel.hxx 223-240 *)
Record fid : Type := { functionIndex : N; functionType : N }.

(** graphicalmodel.hxx 877-888, 890-901, 903-914, 916-927, 929-937. *)
Definition fid_lt (a b : fid) : bool :=
  if functionType a <? functionType b then true else functionIndex a <? functionIndex b.
Definition fid_gt (a b : fid) : bool :=
  if functionType b <? functionType a then true else functionIndex b <? functionIndex a.
Definition fid_le (a b : fid) : bool :=
  if functionType a <=? functionType b then true else functionIndex a <=? functionIndex b.
Definition fid_ge (a b : fid) : bool :=
  if functionType b <=? functionType a then true else functionIndex b <=? functionIndex a.
Definition fid_eq (a b : fid) : bool :=
  (functionType a =? functionType b) && (functionIndex a =? functionIndex b).
