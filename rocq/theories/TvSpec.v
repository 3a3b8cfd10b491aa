(** What the protocol of a visitor that takes times has to be, in terms of the calls that it was given. *)
From Coq Require Import QArith Qcanon Sorted.
From Verif Require Import Base Values TvModel.
Open Scope nat_scope.

(** The calls between begin and end. *)
Definition inside (c : vcall) : Prop := match c with VStep _ _ _ _ | VAdd _ | VLog _ _ _ _ => True | _ => False end.
Definition is_log (c : vcall) : Prop := match c with VLog _ _ _ _ => True | _ => False end.
(** A call of the visitor in a step: the two readings of the clock, value and bound. *)
Definition vdata := (Z * Z * Qc * Qc)%type.
Definition d_before (d : vdata) : Z := let '(t1, _, _, _) := d in t1.
Definition d_after (d : vdata) : Z := let '(_, t2, _, _) := d in t2.
Definition d_value (d : vdata) : Qc := let '(_, _, v, _) := d in v.
Definition d_bound (d : vdata) : Qc := let '(_, _, _, b) := d in b.
Definition steps (h : list vcall) : list vdata := flat_map (fun c => match c with VStep t1 t2 v b => [(t1, t2, v, b)] | _ => [] end) h.
(** The steps counted from 1, and of those the ones whose number the interval divides. *)
Definition recorded (n : nat) (h : list vcall) : list (nat * vdata) :=
  filter (fun jd => fst jd mod n =? 0) (combine (seq 1 (length (steps h))) (steps h)).
(** The clock never goes back. *)
Fixpoint clock (t : Z) (h : list vcall) : Prop :=
  match h with
  | [] => True
  | VBegin t1 t2 _ _ :: h => (t <= t1 <= t2)%Z /\ clock t2 h
  | VStep t1 t2 _ _ :: h => (t <= t1 <= t2)%Z /\ clock t2 h
  | VLog t1 t2 _ _ :: h => (t <= t1 <= t2)%Z /\ clock t2 h
  | VEnd t1 _ _ :: h => (t <= t1)%Z /\ clock t1 h
  | VAdd _ :: h => clock t h
  end.
Definition zsum (l : list Z) : Z := fold_right Z.add 0%Z l.
(** The time that recorded steps spend in the visitor. *)
Definition visiting (n : nat) (h : list vcall) : Z := zsum (map (fun jd => d_after (snd jd) - d_before (snd jd))%Z (recorded n h)).
(** One entry for every step: the last value that was logged after it and before the next step. *)
Definition entries (e : nat) (h : list vcall) : list (option Qc) :=
  fold_left (fun l c => match c with VStep _ _ _ _ => l ++ [None] | VLog _ _ k x => if k =? e then removelast l ++ [Some x] else l | _ => l end) h [].
