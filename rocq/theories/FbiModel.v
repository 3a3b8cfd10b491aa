(** FusionBasedInf and its proposal generators: include/opengm/inference/fusion_based_inf.hxx, with HlFusionMover of
    FmModel.v.

    A generator is a state and a step that returns the proposal for the current labeling; rand() after srand(seed) is a
    function [rnd] of the seed; the visitor is a function [stop] of the number of its call.  Reading a factor at a label
    that does not exist is undefined.  Simplified: the proposal is built as a new vector (the code overwrites every entry
    of one with an entry for every variable), and every fusion starts with cleared index vectors in the mover (C57 holds for
    any contents). *)
From Verif Require Import Base Values GmView FmModel.

Section Gen.
Variable T : Type.
Variable g : gmv T.
Let numVar := length (v_labels g).
(** The maximal number of labels, lines 82-88 and 233-241. *)
Definition pg_maxLabel : nat := fold_left (fun m k => if m <? k then k else m) (v_labels g) 0.
Record propgen : Type := mkGen { pg_state : Type; pg_init : pg_state; pg_stop : nat; pg_next : pg_state -> list nat -> outcome (pg_state * list nat) }.

(** AlphaExpansionGen, lines 66-119. *)
Definition ae_next (alpha : nat) (current : list nat) : outcome (nat * list nat) :=
  proposal <- mapM (fun vi => k <- rd (v_labels g) vi ;; if alpha <? k then Ret alpha else rd current vi) (seq 0 numVar) ;;
  let alpha := alpha + 1 in Ret (if pg_maxLabel <=? alpha then 0 else alpha, proposal).
Definition AlphaExpansionGen : propgen := mkGen nat 0 pg_maxLabel ae_next.

(** UpDownGen, lines 124-217: the state is argBuffer_ and direction_ (true for 1).  argBuffer_ is overwritten with all of
    current while the first variable is treated.  The label 0 - 1 wraps around; it is taken for
    undefined, as it does not exist and infer evaluates it. *)
Definition ud_var (current : list nat) (st : (list nat * list bool) * list nat) (vi : nat) : outcome ((list nat * list bool) * list nat) :=
  let '(argBuffer, direction, proposal) := st in
  numL <- rd (v_labels g) vi ;; ol <- rd argBuffer vi ;; cl <- rd current vi ;; d <- rd direction vi ;;
  let d := if ol =? cl then negb d else d in
  let argBuffer := current in
  if d then
    if cl + 1 <? numL then direction <- wr direction vi d ;; Ret (argBuffer, direction, proposal ++ [cl + 1])
    else if 1 <=? cl then direction <- wr direction vi false ;; Ret (argBuffer, direction, proposal ++ [cl - 1]) else Undef
  else
    if 1 <=? cl then direction <- wr direction vi d ;; Ret (argBuffer, direction, proposal ++ [cl - 1])
    else direction <- wr direction vi true ;; Ret (argBuffer, direction, proposal ++ [cl + 1]).
Definition ud_next (s : list nat * list bool) (current : list nat) : outcome ((list nat * list bool) * list nat) :=
  foldM (ud_var current) (seq 0 numVar) (s, []).
(** The start direction: up, down or random. *)
Definition UpDownGen (start : nat -> bool) : propgen := mkGen (list nat * list bool) (repeat 0 numVar, map start (seq 0 numVar)) 2 ud_next.

(** AlphaBetaSwapGen, lines 220-309.  The walker of two coordinates is utilities/indexing.hxx 122-158. *)
Definition walk2 (k : nat) (p : nat * nat) : nat * nat := if fst p =? k - 1 then (0, snd p + 1) else (fst p + 1, snd p).
Fixpoint off_diagonal (fuel k : nat) (p : nat * nat) : outcome (nat * nat) :=
  if fst p =? snd p then match fuel with 0 => Diverge | S fuel => off_diagonal fuel k (walk2 k p) end else Ret p.
Definition ab_step (k : nat) (p : nat * nat) : outcome (nat * nat) :=
  let p := walk2 k p in
  let p := if (fst p + 1 =? k) && (snd p + 1 =? k) then (0, 0) else p in
  off_diagonal 2 k p.
Definition ab_next (p : nat * nat) (current : list nat) : outcome ((nat * nat) * list nat) :=
  if pg_maxLabel <? 2 then Ret (p, current)
  else
    p <- ab_step pg_maxLabel p ;;
    let alpha := fst p in let beta := snd p in
    proposal <- mapM (fun vi => c <- rd current vi ;; k <- rd (v_labels g) vi ;;
                                Ret (if (c =? alpha) && (beta <? k) then beta else if (c =? beta) && (alpha <? k) then alpha else c)) (seq 0 numVar) ;;
    Ret (p, proposal).
Definition AlphaBetaSwapGen : propgen := mkGen (nat * nat) (0, 0) ((pg_maxLabel * pg_maxLabel - pg_maxLabel) / 2) ab_next.

(** RandomGen, lines 312-348; utilities/random.hxx 60-92. *)
Variable rnd : nat -> nat.
Definition rg_next (step : nat) (current : list nat) : outcome (nat * list nat) :=
  proposal <- mapM (fun vi => k <- rd (v_labels g) vi ;; Ret (rnd (step + vi) mod k)) (seq 0 numVar) ;; Ret (S step, proposal).
Definition RandomGen : propgen := mkGen nat 0 10 rg_next.
(** Random2Gen, lines 350-384. *)
Definition r2_next (step : nat) (current : list nat) : outcome (nat * list nat) :=
  proposal <- mapM (fun vi => Ret (Nat.min (rnd (step + vi) mod 3) 1)) (seq 0 numVar) ;; Ret (S step, proposal).
Definition Random2Gen : propgen := mkGen nat 0 4 r2_next.
End Gen.

Section Fbi.
Variable T : Type.
Variable OP : oper T.
Variable ACC : accum T.
Variable g : gmv T.
Variable gen : propgen.
Variable solvers : hlsolvers T.
Variable kind : fusionSolver.
(** Parameter, lines 961-992. *)
Record fbparam : Type := mkFbParam { fb_numIt : nat; fb_numStopIt : nat }.
Variable p : fbparam.
Let numVar := length (v_labels g).
(** gm_.evaluate; reading outside of a factor's shape is undefined. *)
Definition fb_evaluate (x : list nat) : outcome T :=
  if forallb (fun fc : list nat * (list nat -> T) => forallb (fun v => nth v x 0 <? nth v (v_labels g) 0) (fst fc)) (v_factors g) then v_evaluate T OP g x else Undef.

(** The members, lines 1007-1018; numStopIt_ is changed by infer. *)
Record fbi : Type := mkFbi { fb_arg : list nat; fb_val : T; fb_gen : pg_state gen; fb_stop : nat }.
(** Lines 1041-1055: the default label of variable [i]. *)
Definition fb_startLabel (i : nat) : outcome nat :=
  k <- rd (v_labels g) i ;;
  foldM (fun conf fi =>
           fc <- rd (v_factors g) fi ;;
           if length (fst fc) =? 1 then
             Ret (fst (fold_left (fun (st : nat * T) l => let x := snd fc [l] in if a_bop ACC x (snd st) then (l, x) else st) (seq 0 k) (conf, a_neutral ACC)))
           else Ret conf)
    (v_adj T g i) 0.
(** setStartingPoint, lines 1073-1081. *)
Definition fb_setStart (s : fbi) (x : list nat) : outcome fbi :=
  arg <- mapM (rd x) (seq 0 numVar) ;; v <- fb_evaluate arg ;; Ret (mkFbi arg v (fb_gen s) (fb_stop s)).
(** The constructor, lines 1022-1058. *)
Definition fb_new : outcome fbi :=
  conf <- mapM fb_startLabel (seq 0 numVar) ;;
  fb_setStart (mkFbi (repeat 0 numVar) (a_neutral ACC) (pg_init gen) (fb_numStopIt p)) conf.

(** Why the loop ended: the number of iterations, the visitor, or numStopIt_ rounds without improvement. *)
Inductive fbend : Type := EndIterations | EndVisitor | EndConverged.
(** Lines 1127-1162; [steps] is numIt_ minus iteration, [calls] the number of calls of the visitor. *)
Fixpoint fb_loop (stop : nat -> bool) (steps calls : nat) (s : fbi) (fused : list nat) (count : nat) : outcome (fbi * fbend) :=
  match steps with
  | 0 => Ret (s, EndIterations)
  | S steps =>
      ' (gs, proposed) <- pg_next gen (fb_gen s) (fb_arg s) ;;
      proposalValue <- fb_evaluate proposed ;;
      ' (r, fused) <- hl_fuse T OP ACC g solvers kind (fm_vectors0 T g) (fb_arg s) proposed fused (fb_val s) proposalValue ;;
      let check (s : fbi) (calls count : nat) :=
        if (count =? fb_stop s) && negb (fb_stop s =? 0) then Ret (s, EndConverged) else fb_loop stop steps calls s fused count in
      match r with
      | Some v =>
          let improved := a_bop ACC v (fb_val s) in
          let count := if improved then 0 else S count in
          let s := mkFbi (if improved then fused else fb_arg s) v gs (fb_stop s) in
          if stop calls then Ret (s, EndVisitor) else check s (S calls) count
      | None => check (mkFbi (fb_arg s) (fb_val s) gs (fb_stop s)) calls (S count)
      end
  end.
(** infer, lines 1105-1165. *)
Definition fb_infer (stop : nat -> bool) (s : fbi) : outcome (fbi * fbend) :=
  v <- fb_evaluate (fb_arg s) ;;
  let numStop := if fb_stop s =? 0 then pg_stop gen else fb_stop s in
  fb_loop stop (fb_numIt p) 0 (mkFbi (fb_arg s) v (fb_gen s) numStop) (repeat 0 numVar) 0.
(** reset, lines 1066-1071. *)
Definition fb_reset (s : fbi) : outcome fbi := Throw.
(** value, line 1006, and arg for n = 1, lines 1171-1190. *)
Definition fb_value (s : fbi) : T := fb_val s.

(** Calls on the object. *)
Inductive fbop : Type := BInfer (stop : nat -> bool) | BStart (x : list nat).
Definition fb_step (s : fbi) (o : fbop) : outcome fbi :=
  match o with BInfer stop => ' (s, _) <- fb_infer stop s ;; Ret s | BStart x => fb_setStart s x end.
Definition fb_run (ops : list fbop) : outcome fbi := s <- fb_new ;; foldM fb_step ops s.
End Fbi.
Arguments mkFbi {T gen}. Arguments fb_arg {T gen}. Arguments fb_val {T gen}. Arguments fb_gen {T gen}. Arguments fb_stop {T gen}. Arguments fb_value {T gen}.
