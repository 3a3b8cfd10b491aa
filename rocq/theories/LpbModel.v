(** Model of inference/auxiliary/primal_lpbound.hxx (PrimalLPBound) and of trws/utilities2.hxx 32-62 (VariableToFactorMapping).
    Simplified: exact rational numbers; the buffers hold nothing where the code has the largest number, so a value that is the largest number is not modelled; the
    transportation solver is a partial function from the table of a factor and two vectors to a value and a solution, and it throws where it is not defined;
    ResetBuffer (87), which cannot be instantiated, is not modelled. *)
From Coq Require Import QArith Qcanon.
From Verif Require Import Base Values GmView.
Open Scope nat_scope.

Section Lpb.
Variable g : gmv Qc.
Variable M : Type.
(** TransportationSolver::Init and Solve *)
Variable solve : (list nat -> Qc) -> list Qc -> list Qc -> option (Qc * M).

(** 92-101.  The state of the solver is what it last computed, or nothing if it was not used or has thrown. *)
Record lpb : Type := mkLpb { lb_var : list (list Qc); lb_map : list (option nat); lb_buf : list (option Qc); lb_last : option nat; lb_solver : option (Qc * M); lb_total : option Qc }.

(** trws/utilities2.hxx 50-62; the error of 58 is made but not thrown *)
Definition lb_mapping : outcome (list (option nat)) :=
  foldM (fun m i =>
    ' (vis, _) <- rd (v_factors g) i ;;
    if length vis =? 1 then
      v <- rd vis 0 ;; e <- rd m v ;;
      match e with None => wr m v (Some i) | Some _ => Ret m end
    else Ret m)
  (seq 0 (length (v_factors g))) (repeat None (length (v_labels g))).
(** 103-119 *)
Definition lb_duplicates : outcome bool :=
  count <- foldM (fun c i =>
             ' (vis, _) <- rd (v_factors g) i ;;
             if length vis =? 1 then v <- rd vis 0 ;; k <- rd c v ;; wr c v (S k) else Ret c)
           (seq 0 (length (v_factors g))) (repeat 0 (length (v_labels g))) ;;
  Ret (negb (length (filter (fun k => 1 <? k) count) =? 0)).
(** 127-145 *)
Definition lb_new : outcome lpb :=
  m <- lb_mapping ;;
  d <- lb_duplicates ;;
  if d : bool then Throw
  else Ret (mkLpb (map (fun k => repeat 0%Qc k) (v_labels g)) m (repeat None (length (v_factors g))) None None None).

(** What a call gives: nothing, numbers, a number, a number and a matrix, or an exception *)
Inductive lres : Type := LDone | LNumbers (l : list Qc) | LValue (q : Qc) | LSolution (q : Qc) (m : M) | LThrown.

(** 147-164 *)
Definition lb_setVariable (s : lpb) (var : nat) (input : list Qc) : outcome (lpb * lres) :=
  old <- rd (lb_var s) var ;;
  if length input <? length old then Undef
  else
    vars <- wr (lb_var s) var (firstn (length old) input) ;;
    buf <- foldM (fun b f => wr b f None) (v_adj Qc g var) (lb_buf s) ;;
    Ret (mkLpb vars (lb_map s) buf (lb_last s) (lb_solver s) None, LDone).
(** 166-172 *)
Definition lb_getVariable (s : lpb) (var : nat) : outcome (lpb * lres) := x <- rd (lb_var s) var ;; Ret (s, LNumbers x).
(** 182-199; the error of 174-180 is made but not thrown *)
Definition lb_getFactorValue (s : lpb) (f : nat) : outcome (lpb * lres) :=
  b <- rd (lb_buf s) f ;;
  match b with
  | Some q => Ret (s, LValue q)
  | None =>
    ' (vis, t) <- rd (v_factors g) f ;;
    var0 <- rd vis 0 ;; var1 <- rd vis 1 ;;
    if negb (length vis =? 2) then Undef
    else
      x0 <- rd (lb_var s) var0 ;; x1 <- rd (lb_var s) var1 ;;
      match solve t x0 x1 with
      | None => Ret (mkLpb (lb_var s) (lb_map s) (lb_buf s) (lb_last s) None (lb_total s), LThrown)
      | Some (q, m) =>
        buf <- wr (lb_buf s) f (Some q) ;;
        Ret (mkLpb (lb_var s) (lb_map s) buf (Some f) (Some (q, m)) (lb_total s), LValue q)
      end
  end.
(** 201-211 *)
Definition lb_getFactorVariable (s : lpb) (f : nat) : outcome (lpb * lres) :=
  ' (s, r) <- (if match lb_last s with Some k => k =? f | None => false end then Ret (s, LDone) else lb_getFactorValue s f) ;;
  match r with
  | LThrown => Ret (s, LThrown)
  | _ => match lb_solver s with None => Undef | Some (q, m) => Ret (s, LSolution q m) end
  end.
(** 213-237 *)
Definition lb_getVariableValue (s : lpb) (var : nat) : outcome (lpb * lres) :=
  e <- rd (lb_map s) var ;;
  match e with
  | None => Ret (s, LValue 0%Qc)
  | Some f =>
    b <- rd (lb_buf s) f ;;
    match b with
    | Some q => Ret (s, LValue q)
    | None =>
      x <- rd (lb_var s) var ;;
      ' (vis, t) <- rd (v_factors g) f ;;
      let sum := fold_left (fun sum i => sum + nth i x 0 * t [i])%Qc (seq 0 (length x)) 0%Qc in
      buf <- wr (lb_buf s) f (Some sum) ;;
      Ret (mkLpb (lb_var s) (lb_map s) buf (lb_last s) (lb_solver s) (lb_total s), LValue sum)
    end
  end.
(** 246-253, for the factors that are left; nothing more is added after an exception *)
Fixpoint lb_sum (fs : list nat) (s : lpb) : outcome (lpb * lres) :=
  match fs with
  | [] => Ret (s, LDone)
  | f :: fs =>
    ' (vis, _) <- rd (v_factors g) f ;;
    ' (s, r) <- (if length vis =? 1 then v <- rd vis 0 ;; lb_getVariableValue s v
                 else if length vis =? 2 then lb_getFactorValue s f
                 else Ret (s, LThrown)) ;;
    match r, lb_total s with
    | LValue q, Some total => lb_sum fs (mkLpb (lb_var s) (lb_map s) (lb_buf s) (lb_last s) (lb_solver s) (Some (total + q)%Qc))
    | _, _ => Ret (s, LThrown)
    end
  end.
(** 239-257 *)
Definition lb_getTotalValue (s : lpb) : outcome (lpb * lres) :=
  ' (s, r) <- match lb_total s with
              | Some _ => Ret (s, LDone)
              | None => lb_sum (seq 0 (length (v_factors g))) (mkLpb (lb_var s) (lb_map s) (lb_buf s) (lb_last s) (lb_solver s) (Some 0%Qc))
              end ;;
  match r, lb_total s with
  | LDone, Some q => Ret (s, LValue q)
  | _, _ => Ret (s, LThrown)
  end.

(** The calls of a user *)
Inductive lop : Type := LSet (var : nat) (x : list Qc) | LGet (var : nat) | LTotal | LFactor (f : nat) | LVar (var : nat) | LMatrix (f : nat).
Definition lb_do (s : lpb) (o : lop) : outcome (lpb * lres) :=
  match o with
  | LSet v x => lb_setVariable s v x
  | LGet v => lb_getVariable s v
  | LTotal => lb_getTotalValue s
  | LFactor f => lb_getFactorValue s f
  | LVar v => lb_getVariableValue s v
  | LMatrix f => lb_getFactorVariable s f
  end.
(** The object and what the calls gave *)
Definition lb_run (h : list lop) : outcome (lpb * list lres) :=
  s <- lb_new ;;
  foldM (fun (c : lpb * list lres) o => ' (s, r) <- lb_do (fst c) o ;; Ret (s, snd c ++ [r])) h (s, []).
End Lpb.
Arguments mkLpb {M}. Arguments lb_var {M}. Arguments lb_map {M}. Arguments lb_buf {M}. Arguments lb_last {M}. Arguments lb_solver {M}. Arguments lb_total {M}.
Arguments LDone {M}. Arguments LNumbers {M}. Arguments LValue {M}. Arguments LSolution {M}. Arguments LThrown {M}.
