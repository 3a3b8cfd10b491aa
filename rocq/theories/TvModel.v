(** Model of visitors::TimingVisitor (inference/visitors/visitors.hxx 117-345) with Timer (utilities/timer.hxx 77-132).
    Simplified: a call is given the readings of the clock where it stops the timer and where it starts it again, as integers; values are rational numbers, so a value that is
    no number is None only in the additional logs; the names of additional logs are numbers and other than the names of the protocol itself; the time limit may be absent,
    where the code has infinity.  Output and the logging of memory are not modelled.
    ExplicitTimingVisitor (343-535) has the same begin, step and end, with value and bound as arguments, and no additional logs: its runs are those of the calls VBegin, VStep and VEnd. *)
From Coq Require Import QArith Qcanon.
From Verif Require Import Base Values ConstraintModel.
Open Scope nat_scope.

(** 15-19 *)
Inductive vflag := Continue | GapReached | Timeout.
(** 329-344; vi_logs is the part of protocolMap_ with the additional names, and vi_start is start_ of the timer *)
Record visitor : Type := mkVisitor { vi_start : Z; vi_total : Z; vi_ctime : list Z; vi_times : list Z; vi_values : list Qc; vi_bounds : list Qc; vi_iterations : list nat;
  vi_iteration : nat; vi_extra : list nat; vi_logs : nat -> list (option Qc) }.
(** 122-165 *)
Definition vi_new (t : Z) : visitor := mkVisitor t 0 [] [] [] [] [] 0 [] (fun _ => []).

Section Visitor.
Variables (nth_ : nat) (timeLimit : option Z) (gapLimit : Qc).

(** 167-195 *)
Definition vi_begin (s : visitor) (t1 t2 : Z) (val bound : Qc) : visitor :=
  mkVisitor t2 (vi_total s) (vi_ctime s ++ [t1 - vi_start s]%Z) (vi_times s ++ [0%Z]) (vi_values s ++ [val]) (vi_bounds s ++ [bound]) (vi_iterations s ++ [vi_iteration s])
    (S (vi_iteration s)) (vi_extra s) (vi_logs s).
Definition vi_gap (val bound : Qc) : bool := negb (Qc_lt gapLimit (if Qc_lt (bound - val) 0 then - (bound - val) else bound - val)%Qc).
(** 197-255 *)
Definition vi_step (s : visitor) (t1 t2 : Z) (val bound : Qc) : outcome (visitor * vflag) :=
  if nth_ =? 0 then Undef
  else if vi_iteration s mod nth_ =? 0 then
    let total := (vi_total s + (t1 - vi_start s))%Z in
    let logs := fold_left (fun m e => fun k => if k =? e then m k ++ [None] else m k) (vi_extra s) (vi_logs s) in
    let next := fun i => mkVisitor t2 total (vi_ctime s) (vi_times s ++ [total]) (vi_values s ++ [val]) (vi_bounds s ++ [bound]) (vi_iterations s ++ [vi_iteration s]) i (vi_extra s) logs in
    if vi_gap val bound then Ret (next (vi_iteration s), GapReached)
    else if match timeLimit with Some l => (l <? total)%Z | None => false end then Ret (next (vi_iteration s), Timeout)
    else Ret (next (S (vi_iteration s)), Continue)
  else Ret (mkVisitor (vi_start s) (vi_total s) (vi_ctime s) (vi_times s) (vi_values s) (vi_bounds s) (vi_iterations s) (S (vi_iteration s)) (vi_extra s) (vi_logs s), Continue).
(** 258-279; the timer is not started again *)
Definition vi_end (s : visitor) (t1 : Z) (val bound : Qc) : visitor :=
  let total := (vi_total s + (t1 - vi_start s))%Z in
  mkVisitor (vi_start s) total (vi_ctime s) (vi_times s ++ [total]) (vi_values s ++ [val]) (vi_bounds s ++ [bound]) (vi_iterations s ++ [vi_iteration s]) (vi_iteration s) (vi_extra s) (vi_logs s).
(** 282-285 *)
Definition vi_addLog (s : visitor) (e : nat) : visitor :=
  mkVisitor (vi_start s) (vi_total s) (vi_ctime s) (vi_times s) (vi_values s) (vi_bounds s) (vi_iterations s) (vi_iteration s) (vi_extra s ++ [e]) (fun k => if k =? e then [] else vi_logs s k).
(** 286-296; the time that the timer has stopped at is not used *)
Definition vi_log (s : visitor) (t1 t2 : Z) (e : nat) (x : Qc) : outcome visitor :=
  if nth_ =? 0 then Undef
  else if vi_iteration s mod nth_ =? 0 then
    l <- wr (vi_logs s e) (length (vi_logs s e) - 1) (Some x) ;;
    Ret (mkVisitor t2 (vi_total s) (vi_ctime s) (vi_times s) (vi_values s) (vi_bounds s) (vi_iterations s) (vi_iteration s) (vi_extra s) (fun k => if k =? e then l else vi_logs s k))
  else Ret s.

(** The calls of an algorithm and of its user; the clock where the timer is stopped and where it is started *)
Inductive vcall := VBegin (t1 t2 : Z) (val bound : Qc) | VStep (t1 t2 : Z) (val bound : Qc) | VEnd (t1 : Z) (val bound : Qc) | VAdd (e : nat) | VLog (t1 t2 : Z) (e : nat) (x : Qc).
Definition vi_call (s : visitor) (c : vcall) : outcome (visitor * list vflag) :=
  match c with
  | VBegin t1 t2 v b => Ret (vi_begin s t1 t2 v b, [])
  | VStep t1 t2 v b => ' (s, f) <- vi_step s t1 t2 v b ;; Ret (s, [f])
  | VEnd t1 v b => Ret (vi_end s t1 v b, [])
  | VAdd e => Ret (vi_addLog s e, [])
  | VLog t1 t2 e x => s <- vi_log s t1 t2 e x ;; Ret (s, [])
  end.
Definition vi_run (h : list vcall) (s : visitor) : outcome (visitor * list vflag) :=
  foldM (fun '(s, fs) c => ' (s, f) <- vi_call s c ;; Ret (s, fs ++ f)) h (s, []).
End Visitor.
