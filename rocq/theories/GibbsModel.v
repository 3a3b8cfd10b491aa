(** Model of inference/gibbs.hxx (Gibbs, GibbsMarginalVisitor).
    Simplified: rand() gives any numbers; whether a move that does not improve is accepted (a random number against a probability that
    may depend on a temperature, 49-56 and 149-163) is any function of the iteration and the two values; counts of marginals are natural numbers. *)
From Verif Require Import Base Values GmView MovemakerModel.

Section Gibbs.
Variable T : Type.
Variable OP : oper T.
Variable mult : bool.
Variable ACC : accum T.
(** == of the values *)
Variable eqv : T -> T -> bool.
Variable g : gmv T.

(** 104-141 *)
Record gpar : Type := mkGpar { gp_steps : nat; gp_burn : nat; gp_cyclic : bool; gp_start : list nat }.
Variable par : gpar.
(** 164-170 *)
Record gb : Type := mkGb { gb_mm : mm T; gb_best : list nat; gb_value : T; gb_in : bool }.

(** 172-197 *)
Definition gb_new : outcome gb :=
  m <- mm_new T OP g ;;
  if negb (length (gp_start par) =? 0) then
    if length (gp_start par) =? length (v_labels g) then
      m <- mm_initialize T OP g m (gp_start par) ;; Ret (mkGb m (gp_start par) (mm_value m) false)
    else Throw
  else Ret (mkGb m (repeat 0 (length (v_labels g))) (a_ineutral ACC) false).
(** 199-216 *)
Definition gb_reset (s : gb) : outcome gb :=
  if negb (length (gp_start par) =? 0) then
    if length (gp_start par) =? length (v_labels g) then
      m <- mm_initialize T OP g (gb_mm s) (gp_start par) ;; Ret (mkGb m (gp_start par) (mm_value m) (gb_in s))
    else Throw
  else m <- mm_reset T OP g (gb_mm s) ;; Ret (mkGb m (repeat 0 (length (gb_best s))) (gb_value s) (gb_in s)).
(** 218-236 *)
Definition gb_setStartingPoint (s : gb) (x : list nat) : outcome gb :=
  m <- mm_initialize T OP g (gb_mm s) x ;;
  best <- foldM (fun b v => l <- rd (mm_state m) v ;; wr b v l) (seq 0 (length (v_labels g))) (gb_best s) ;;
  Ret (mkGb m best (mm_value m) (gb_in s)).

(** What is drawn in an iteration: the number for the variable, the number for the label, and whether a move that does not improve is accepted *)
Record draws : Type := mkDraws { dr_var : nat -> nat; dr_lab : nat -> nat; dr_flip : nat -> T -> T -> bool }.
Variable dr : draws.
(** random.hxx 77-87: rand() % (high - low) + low with low = 0 *)
Definition random (r high : nat) : outcome nat := if high =? 0 then Undef else Ret (Nat.modulo r high).
(** 273-280; numberOfVariables() - 1 wraps for no variables *)
Definition select (it : nat) : outcome nat :=
  if gp_cyclic par then Ret (if lt_pred 0 (length (v_labels g)) then 1 else 0) else random (dr_var dr it) (length (v_labels g)).
(** 296-301, 343-348 *)
Definition store_best (m : mm T) (newValue : T) (s : gb) : outcome gb :=
  if a_bop ACC newValue (gb_value s) && negb (eqv newValue (gb_value s)) then
    best <- foldM (fun b k => l <- rd (mm_state m) k ;; wr b k l) (seq 0 (length (gb_best s))) (gb_best s) ;;
    Ret (mkGb m best newValue (gb_in s))
  else Ret (mkGb m (gb_best s) (gb_value s) (gb_in s)).
(** 271-323 (319-370 is the same); the result says whether the visitor was called, and so whether the iteration counts twice *)
Definition gb_step (s : gb) (it : nat) : outcome (gb * bool) :=
  v <- select it ;; k <- rd (v_labels g) v ;; label <- random (dr_lab dr it) k ;;
  cur <- rd (mm_state (gb_mm s)) v ;;
  if label =? cur then Ret (s, false)
  else
    let oldValue := mm_value (gb_mm s) in
    ' (m, newValue) <- valueAfterMove T OP mult g (gb_mm s) [v] [label] ;;
    if a_bop ACC newValue oldValue then
      ' (m, _) <- move T OP mult g m [v] [label] ;; s <- store_best m newValue s ;; Ret (s, true)
    else if dr_flip dr it newValue oldValue then
      ' (m, _) <- move T OP mult g m [v] [label] ;; Ret (mkGb m (gb_best s) (gb_value s) (gb_in s), true)
    else Ret (mkGb m (gb_best s) (gb_value s) (gb_in s), true).
(** 385-405 *)
Definition gb_arg (s : gb) : list nat := if gb_in s then mm_state (gb_mm s) else gb_best s.
(** 270-324; the second result: arg() at the calls of the visitor *)
Fixpoint gb_loop (fuel it : nat) (s : gb) (seen : list (list nat)) : outcome (gb * list (list nat)) :=
  if it <? gp_steps par + gp_burn par then
    match fuel with
    | O => Diverge
    | S fuel =>
      ' (s, called) <- gb_step s it ;;
      if called : bool then gb_loop fuel (S (S it)) s (seen ++ [gb_arg s]) else gb_loop fuel (S it) s seen
    end
  else Ret (s, seen).
(** 258-383 *)
Definition gb_infer (s : gb) : outcome (gb * list (list nat)) :=
  ' (s, seen) <- gb_loop (gp_steps par + gp_burn par) 0 (mkGb (gb_mm s) (gb_best s) (gb_value s) true) [] ;;
  Ret (mkGb (gb_mm s) (gb_best s) (gb_value s) false, seen).
End Gibbs.
Arguments mkGb {T}. Arguments gb_mm {T}. Arguments gb_best {T}. Arguments gb_value {T}. Arguments gb_in {T}.
Arguments mkDraws {T}. Arguments dr_var {T}. Arguments dr_lab {T}. Arguments dr_flip {T}. Arguments gb_arg {T}.

Section History.
Variable T : Type.
Variable OP : oper T.
Variable mult : bool.
Variable ACC : accum T.
Variable eqv : T -> T -> bool.
Variable g : gmv T.
Variable par : gpar.
(** The calls of a user *)
Inductive gop : Type := GReset | GStart (x : list nat) | GInfer (dr : draws T).
Definition gb_do (s : gb T) (o : gop) : outcome (gb T) :=
  match o with
  | GReset => gb_reset T OP g par s
  | GStart x => gb_setStartingPoint T OP g s x
  | GInfer dr => r <- gb_infer T OP mult ACC eqv g par dr s ;; Ret (fst r)
  end.
Definition gb_run (h : list gop) : outcome (gb T) := s <- gb_new T OP ACC g par ;; foldM gb_do h s.
End History.
Arguments GReset {T}. Arguments GStart {T}. Arguments GInfer {T}.

(** 60-92 and 408-559, GibbsMarginalVisitor: samples, accepted, rejected, and for each marginal its variables and its table of counts *)
Record gmvis : Type := mkGmvis { gv_samples : nat; gv_accepted : nat; gv_rejected : nat; gv_marginals : list (list nat * (list nat -> nat)); gv_cache : list nat }.
(** 408-430 *)
Definition gv_new : gmvis := mkGmvis 0 0 0 [] [].
(** 486-505; the tables start at zero (graphicalmodel_factor.hxx 1131-1147) *)
Definition gv_addMarginal (s : gmvis) (vis : list nat) : gmvis * nat :=
  let ms := gv_marginals s ++ [(vis, fun _ => 0)] in
  let cache := if length (gv_cache s) <? length vis then gv_cache s ++ repeat 0 (length vis - length (gv_cache s)) else gv_cache s in
  (mkGmvis (gv_samples s) (gv_accepted s) (gv_rejected s) ms cache, length ms - 1).
Fixpoint leqb (a b : list nat) : bool := match a, b with [] , [] => true | x :: a, y :: b => (x =? y) && leqb a b | _, _ => false end.
(** 462-469, one marginal; the index of the table is read from the first entries of the cache *)
Definition gv_count (x : list nat) (cache : list nat) (m : list nat * (list nat -> nat)) : outcome (list nat * (list nat * (list nat -> nat))) :=
  cache <- foldM (fun cache k => v <- rd (fst m) k ;; l <- rd x v ;; wr cache k l) (seq 0 (length (fst m))) cache ;;
  let c := firstn (length (fst m)) cache in
  Ret (cache, (fst m, fun c' => if leqb c' c then S (snd m c') else snd m c')).
(** 443-472 *)
Definition gv_call (s : gmvis) (x : list nat) (accepted burningIn : bool) : outcome gmvis :=
  if burningIn then Ret s
  else
    ' (cache, ms) <- foldM (fun (p : list nat * list (list nat * (list nat -> nat))) m => ' (cache, m) <- gv_count x (fst p) m ;; Ret (cache, snd p ++ [m])) (gv_marginals s) (gv_cache s, []) ;;
    Ret (mkGmvis (S (gv_samples s)) (if accepted then S (gv_accepted s) else gv_accepted s) (if accepted then gv_rejected s else S (gv_rejected s)) ms cache).
(** The calls *)
Inductive gvop : Type := VAdd (vis : list nat) | VCall (x : list nat) (accepted burningIn : bool).
Definition gv_do (s : gmvis) (o : gvop) : outcome gmvis :=
  match o with VAdd vis => Ret (fst (gv_addMarginal s vis)) | VCall x a b => gv_call s x a b end.
Definition gv_run (h : list gvop) : outcome gmvis := foldM gv_do h gv_new.
