(** Movemaker: include/opengm/inference/movemaker.hxx.

    The model is read through its view (GmView.v).  [std::set<size_t>] is a sorted list without repetition.
    Simplified: values are a parameter type with the operation OP (exact arithmetic; +inf, -inf and NaN are
    available through the instance [ext]); OPENGM_ASSERT is off (release build); proposeMoveAccordingToInference
    and addFactorsToSubGm are modelled in SubmodelModel.v. *)
From Verif Require Import Base Values GmView.

Section Movemaker.
Variable T : Type.
Variable OP : oper T.
(** meta::Compare<OperatorType, Multiplier>::value, line 297. *)
Variable mult : bool.
(** The test of lines 441-444 and 582-585: Maximizer, Multiplier and energy_ == 0. *)
Variable recompute : T -> bool.

(** Insertion into a std::set<size_t>. *)
Fixpoint sins (k : nat) (s : list nat) : list nat :=
  match s with
  | [] => [k]
  | h :: t => if k <? h then k :: s else if k =? h then s else h :: sins k t
  end.
(** std::set_union into a fresh set (lines 322-326, 386-390, 482-486). *)
Definition sunion (s t : list nat) : list nat := fold_left (fun s k => sins k s) t s.

(** The members, lines 79-83. *)
Record mm : Type := mkMm { mm_fov : list (list nat); mm_state : list nat; mm_buf : list nat; mm_energy : T }.

(** The factors of each variable, lines 227-231 and 250-254. *)
Definition factorsOfVariable (g : gmv T) : outcome (list (list nat)) :=
  foldM (fun fov f => ' (vis, _) <- rd (v_factors g) f ;;
           foldM (fun fov v => s <- rd fov v ;; wr fov v (sins f s)) vis fov)
        (seq 0 (length (v_factors g))) (repeat [] (length (v_labels g))).

(** Lines 216-232. *)
Definition mm_new (g : gmv T) : outcome mm :=
  let z := repeat 0 (length (v_labels g)) in
  e <- v_evaluate T OP g z ;;
  fov <- factorsOfVariable g ;;
  Ret (mkMm fov z z e).

(** Copying the first labels of a sequence, lines 246-249, 265-268. *)
Definition copy_labels (g : gmv T) (x : list nat) : outcome (list nat) :=
  mapM (rd x) (seq 0 (length (v_labels g))).

(** Lines 234-255. *)
Definition mm_new_at (g : gmv T) (x : list nat) : outcome mm :=
  e <- v_evaluate T OP g x ;;
  st <- copy_labels g x ;;
  fov <- factorsOfVariable g ;;
  Ret (mkMm fov st st e).

(** Lines 259-270. *)
Definition mm_initialize (g : gmv T) (m : mm) (x : list nat) : outcome mm :=
  e <- v_evaluate T OP g x ;;
  st <- copy_labels g x ;;
  Ret (mkMm (mm_fov m) st st e).

(** Lines 272-280. *)
Definition mm_reset (g : gmv T) (m : mm) : outcome mm :=
  let z := repeat 0 (length (v_labels g)) in
  e <- v_evaluate T OP g z ;;
  Ret (mkMm (mm_fov m) z z e).

(** Lines 282-286. *)
Definition mm_value (m : mm) : T := mm_energy m.

(** stateBuffer_[*it] = state_[*it] for every listed variable (lines 308-310, 344-346, 452-456, 594-598). *)
Definition restore (state buf vars : list nat) : outcome (list nat) :=
  foldM (fun b v => s <- rd state v ;; wr b v s) vars buf.

(** Lines 288-350.  The destination is read in parallel with the variables. *)
Definition valueAfterMove (g : gmv T) (m : mm) (vars dest : list nat) : outcome (mm * T) :=
  if mult then
    buf <- foldM (fun b i => v <- rd vars i ;; d <- rd dest i ;; wr b v d) (seq 0 (length vars)) (mm_buf m) ;;
    e <- v_evaluate T OP g buf ;;
    buf <- restore (mm_state m) buf vars ;;
    Ret (mkMm (mm_fov m) (mm_state m) buf (mm_energy m), e)
  else
    ' (buf, F) <- foldM (fun (p : list nat * list nat) i =>
                    v <- rd vars i ;; d <- rd dest i ;; s <- rd (mm_state m) v ;;
                    if s =? d then Ret p
                    else b <- wr (fst p) v d ;; fv <- rd (mm_fov m) v ;; Ret (b, sunion (snd p) fv))
                  (seq 0 (length vars)) (mm_buf m, []) ;;
    e <- foldM (fun dv f => fc <- rd (v_factors g) f ;;
                  cur <- fvalue T fc (mm_state m) ;; dst <- fvalue T fc buf ;;
                  Ret (o_iop OP cur (o_op OP dst dv))) F (mm_energy m) ;;
    buf <- restore (mm_state m) buf vars ;;
    Ret (mkMm (mm_fov m) (mm_state m) buf (mm_energy m), e).

(** Lines 352-368. *)
Definition move (g : gmv T) (m : mm) (vars dest : list nat) : outcome (mm * T) :=
  ' (m, e) <- valueAfterMove g m vars dest ;;
  ' (st, buf) <- foldM (fun (p : list nat * list nat) i =>
                   v <- rd vars i ;; d <- rd dest i ;;
                   st <- wr (fst p) v d ;; buf <- wr (snd p) v d ;; Ret (st, buf))
                 (seq 0 (length vars)) (mm_state m, mm_buf m) ;;
  Ret (mkMm (mm_fov m) st buf e, e).

(** Lines 625-643. *)
Definition evaluateFactors (g : gmv T) (F : list nat) (x : list nat) : outcome T :=
  foldM (fun acc f => fc <- rd (v_factors g) f ;; v <- fvalue T fc x ;; Ret (o_op OP v acc)) F (o_neutral OP).

(** The factors to recompute, lines 383-391, 480-488. *)
Definition factorsToRecompute (m : mm) (vars : list nat) : outcome (list nat) :=
  foldM (fun F v => fv <- rd (mm_fov m) v ;; Ret (sunion F fv)) vars [].

(** b < n - 1 for unsigned n (n - 1 wraps for n = 0), lines 424, 535, 540. *)
Definition lt_pred (b n : nat) : bool := (n =? 0) || (b <? n - 1).

(** Incrementing the buffered state, lines 422-434 and 533-569: [next] gives the next label of a variable or
    reports that there is none, [first] its first label; [true] stands for the jump to the end of the search. *)
Fixpoint incr_state (next : nat -> nat -> outcome (option nat)) (first : nat -> outcome nat)
    (vars buf : list nat) : outcome (list nat * bool) :=
  match vars with
  | [] => Ret (buf, false)
  | v :: rest =>
      b <- rd buf v ;; o <- next v b ;;
      match o with
      | Some b' => buf <- wr buf v b' ;; Ret (buf, false)
      | None =>
          match rest with
          | [] => Ret (buf, true)
          | _ :: _ => z <- first v ;; buf <- wr buf v z ;; incr_state next first rest buf
          end
      end
  end.

Variable ACC : accum T.

(** The search loops, lines 408-435 and 513-570 (the assertions of 514-519 are off).  Running out of fuel
    stands for not having finished; the theorems give a sufficient number of rounds. *)
Fixpoint search (fuel : nat) (g : gmv T) (F vars : list nat)
    (next : nat -> nat -> outcome (option nat)) (first : nat -> outcome nat)
    (buf : list nat) (best : T) (bestState : list nat) : outcome (list nat * T * list nat) :=
  match fuel with
  | 0 => Diverge
  | S fuel =>
      e <- evaluateFactors g F buf ;;
      ' (best, bestState) <- (if a_bop ACC e best then bs <- mapM (rd buf) vars ;; Ret (e, bs) else Ret (best, bestState)) ;;
      ' (buf, over) <- incr_state next first vars buf ;;
      if over : bool then Ret (buf, best, bestState)
      else search fuel g F vars next first buf best bestState
  end.

(** The end of both functions, lines 439-459 and 575-601. *)
Definition conclude (g : gmv T) (m : mm) (vars : list nat) (init : T) (buf : list nat) (best : T) (bestState : list nat)
    : outcome (mm * T) :=
  if a_bop ACC best init then
    ' (st, buf) <- foldM (fun (p : list nat * list nat) i =>
                     v <- rd vars i ;; d <- rd bestState i ;;
                     st <- wr (fst p) v d ;; buf <- wr (snd p) v d ;; Ret (st, buf))
                   (seq 0 (length vars)) (mm_state m, buf) ;;
    e <- (if recompute (mm_energy m) then v_evaluate T OP g st
          else Ret (o_op OP best (o_iop OP init (mm_energy m)))) ;;
    Ret (mkMm (mm_fov m) st buf e, e)
  else
    buf <- restore (mm_state m) buf vars ;;
    Ret (mkMm (mm_fov m) (mm_state m) buf (mm_energy m), mm_energy m).

(** Lines 375-460. *)
Definition moveOptimally (fuel : nat) (g : gmv T) (m : mm) (vars : list nat) : outcome (mm * T) :=
  F <- factorsToRecompute m vars ;;
  init <- evaluateFactors g F (mm_state m) ;;
  buf <- foldM (fun b v => wr b v 0) vars (mm_buf m) ;;
  ' (buf, best, bestState) <-
    search fuel g F vars
      (fun v b => n <- rd (v_labels g) v ;; Ret (if lt_pred b n then Some (S b) else None))
      (fun _ => Ret 0) buf init (repeat 0 (length vars)) ;;
  conclude g m vars init buf best bestState.

(** The first label different from the current one, lines 506-511, 546-551, 558-563. *)
Definition first_changed (m : mm) (v : nat) : outcome nat :=
  s <- rd (mm_state m) v ;; Ret (if s =? 0 then 1 else 0).
(** The next label different from the current one, lines 535-543. *)
Definition next_changed (g : gmv T) (m : mm) (v b : nat) : outcome (option nat) :=
  n <- rd (v_labels g) v ;;
  if lt_pred b n then
    s <- rd (mm_state m) v ;;
    Ret (if negb (S b =? s) then Some (S b) else if lt_pred (S b) n then Some (S (S b)) else None)
  else Ret None.

(** The initial labeling, lines 497-512; [true] stands for the early return, which restores the entries
    0, ..., j-1 of the buffer, not those of the listed variables (lines 500-502). *)
Fixpoint initial_changed (g : gmv T) (m : mm) (j : nat) (vars buf : list nat) : outcome (list nat * bool) :=
  match vars with
  | [] => Ret (buf, false)
  | v :: rest =>
      n <- rd (v_labels g) v ;;
      if n =? 1 then buf <- restore (mm_state m) buf (seq 0 j) ;; Ret (buf, true)
      else z <- first_changed m v ;; buf <- wr buf v z ;; initial_changed g m (S j) rest buf
  end.

(** Lines 469-602. *)
Definition moveOptimallyWithAllLabelsChanging (fuel : nat) (g : gmv T) (m : mm) (vars : list nat) : outcome (mm * T) :=
  F <- factorsToRecompute m vars ;;
  init <- evaluateFactors g F (mm_state m) ;;
  ' (buf, early) <- initial_changed g m 0 vars (mm_buf m) ;;
  if early : bool then Ret (mkMm (mm_fov m) (mm_state m) buf (mm_energy m), mm_energy m)
  else
    ' (buf, best, bestState) <-
      search fuel g F vars (next_changed g m) (first_changed m) buf init (repeat 0 (length vars)) ;;
    conclude g m vars init buf best bestState.

(** The calls of a user of a Movemaker. *)
Inductive mop : Type :=
| MValueAfterMove (vars dest : list nat)
| MMove (vars dest : list nat)
| MInitialize (x : list nat)
| MReset
| MMoveOptimally (vars : list nat)
| MMoveAllChanging (vars : list nat).

Definition mstep (fuel : nat) (g : gmv T) (m : mm) (o : mop) : outcome mm :=
  match o with
  | MValueAfterMove vars dest => r <- valueAfterMove g m vars dest ;; Ret (fst r)
  | MMove vars dest => r <- move g m vars dest ;; Ret (fst r)
  | MInitialize x => mm_initialize g m x
  | MReset => mm_reset g m
  | MMoveOptimally vars => r <- moveOptimally fuel g m vars ;; Ret (fst r)
  | MMoveAllChanging vars => r <- moveOptimallyWithAllLabelsChanging fuel g m vars ;; Ret (fst r)
  end.
End Movemaker.
Arguments mkMm {T}. Arguments mm_fov {T}. Arguments mm_state {T}. Arguments mm_buf {T}. Arguments mm_energy {T}. Arguments mm_value {T}.
