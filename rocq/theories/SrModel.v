(** Model of the helpers for sorted sequences (utilities/sorting.hxx 10-107) and of the variable with three values (utilities/tribool.hxx).
    Simplified: elements are integers of any size; std::sort is a parameter of the model. *)
From Verif Require Import Base.
Open Scope nat_scope.

(** sorting.hxx 22-29 *)
Fixpoint sr_find_loop (l : list Z) (x : Z) (ps : list nat) : outcome (option nat) :=
  match ps with
  | [] => Ret None
  | p :: ps => y <- rd l p ;; if (x <? y)%Z then Ret None else if (x =? y)%Z then Ret (Some p) else sr_find_loop l x ps
  end.
(** sorting.hxx 10-31; None where false is returned, and otherwise the position; the element before a sequence without elements is no element *)
Definition sr_find (l : list Z) (n : nat) (x : Z) : outcome (option nat) :=
  if n =? 0 then Undef
  else y <- rd l (n - 1) ;; if (y <? x)%Z then Ret None else sr_find_loop l x (seq 0 n).
(** 38-44 *)
Fixpoint sr_sorted_loop (tmp : Z) (l : list Z) : bool :=
  match l with [] => true | x :: l => if (x <? tmp)%Z then false else sr_sorted_loop x l end.
(** 33-48 *)
Definition sr_sorted (l : list Z) : bool := match l with x :: _ :: _ => sr_sorted_loop x l | _ => true end.
(** 80-107 *)
Definition sr_double (sort : list (Z * Z) -> list (Z * Z)) (a b : list Z) : outcome (list Z * list Z) :=
  ps <- mapM (fun i => x <- rd a i ;; y <- rd b i ;; Ret (x, y)) (seq 0 (length a)) ;;
  let r := sort ps in
  foldM (fun '(a, b) i => p <- rd r i ;; a <- wr a i (fst p) ;; b <- wr b i (snd p) ;; Ret (a, b)) (seq 0 (length a)) (a, b).

(** tribool.hxx 11 *)
Inductive tstate := STrue | SFalse | SMaybe.
(** 11 *)
Definition tr_code (s : tstate) : Z := match s with STrue => 1 | SFalse => 0 | SMaybe => -1 end%Z.
(** 39-41 *)
Definition tr_default : Z := (-1)%Z.
(** 57-65, and the assignment 79-90 *)
Definition tr_of (z : Z) : Z := if (z =? -1)%Z then (-1)%Z else if (z =? 0)%Z then 0%Z else 1%Z.
(** 102-110 *)
Definition tr_eq_bool (t : Z) (a : bool) : bool := ((t =? 1)%Z && Bool.eqb a true) || ((t =? 0)%Z && Bool.eqb a false).
(** 112-120 *)
Definition tr_eq (t z : Z) : bool := (z =? t)%Z.
(** 122-130 *)
Definition tr_ne_bool (t : Z) (a : bool) : bool := (negb (t =? 1)%Z && Bool.eqb a true) || (negb (t =? 1)%Z && Bool.eqb a false).
(** 132-135 *)
Definition tr_bool (t : Z) : bool := (t =? 1)%Z.
(** 137-141 *)
Definition tr_not (t : Z) : bool := (t =? 0)%Z.
(** 143-147 *)
Definition tr_maybe (t : Z) : bool := (t =? -1)%Z.
(** 160-165 *)
Definition tr_and (t : Z) (s : tstate) : Z :=
  let t := match s with STrue => if (t =? 0)%Z then t else 1%Z | _ => t end in
  match s with SFalse => 0%Z | _ => t end.
