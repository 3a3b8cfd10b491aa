(** ICM: include/opengm/inference/icm.hxx.  Visitors are modelled by an oracle that says, for each call,
    whether inference stops.  std::vector<bool> is a list of booleans. *)
From Verif Require Import Base Values GmView MovemakerModel.

Section Icm.
Variable T : Type.
Variable OP : oper T.
Variable mult : bool.
Variable recompute : T -> bool.
Variable ACC : accum T.
Variable g : gmv T.

(** factorgraph.hxx 874-896, templatedVariableAdjacencyList. *)
Definition variableAdjacencyList : outcome (list (list nat)) :=
  foldM (fun out f =>
    ' (vis, _) <- rd (v_factors g) f ;;
    foldM (fun out j =>
      foldM (fun out k =>
        v1 <- rd vis j ;; v2 <- rd vis k ;;
        s1 <- rd out v1 ;; out <- wr out v1 (sins v2 s1) ;;
        s2 <- rd out v2 ;; wr out v2 (sins v1 s2))
      (seq (S j) (length vis - S j)) out)
    (seq 0 (length vis)) out)
  (seq 0 (length (v_factors g))) (repeat [] (length (v_labels g))).

(** The variables of infer: Movemaker, isLocalOptimal, updates, number of visitor calls so far, exitInf. *)
Record icm : Type := mkIcm { ic_mm : mm T; ic_flags : list bool; ic_upd : bool; ic_calls : nat; ic_exit : bool }.

Variable stop : nat -> bool.

(** One label of one variable, lines 185-199; after a break nothing more is done. *)
Definition scan_label (adj : list (list nat)) (v : nat) (c : icm) (s : nat) : outcome icm :=
  if ic_exit c then Ret c
  else
    cur <- rd (mm_state (ic_mm c)) v ;;
    if s =? cur then Ret c
    else
      ' (m, e) <- valueAfterMove T OP mult g (ic_mm c) [v] [s] ;;
      if a_bop ACC e (mm_value m) then
        ' (m, _) <- move T OP mult g m [v] [s] ;;
        ns <- rd adj v ;;
        flags <- foldM (fun fl u => wr fl u false) ns (ic_flags c) ;;
        Ret (mkIcm m flags true (S (ic_calls c)) (stop (ic_calls c)))
      else Ret (mkIcm m (ic_flags c) (ic_upd c) (ic_calls c) (ic_exit c)).

(** One variable, lines 183-202. *)
Definition scan_var (adj : list (list nat)) (c : icm) (v : nat) : outcome icm :=
  if ic_exit c then Ret c
  else
    fl <- rd (ic_flags c) v ;;
    if fl : bool then Ret c
    else
      n <- rd (v_labels g) v ;;
      c <- foldM (scan_label adj v) (seq 0 n) c ;;
      flags <- wr (ic_flags c) v true ;;
      Ret (mkIcm (ic_mm c) flags (ic_upd c) (ic_calls c) (ic_exit c)).

(** while(updates && exitInf==false), lines 181-204 and 218-248, with the sweep as a parameter. *)
Fixpoint sweeps (fuel : nat) (sweep : icm -> outcome icm) (c : icm) : outcome icm :=
  match fuel with
  | 0 => Diverge
  | S fuel =>
      if ic_upd c && negb (ic_exit c) then
        c <- sweep (mkIcm (ic_mm c) (ic_flags c) false (ic_calls c) (ic_exit c)) ;; sweeps fuel sweep c
      else Ret c
  end.

(** Lines 175-205. *)
Definition single_phase (fuel : nat) (m : mm T) : outcome icm :=
  adj <- variableAdjacencyList ;;
  sweeps fuel (fun c => foldM (scan_var adj) (seq 0 (length (v_labels g))) c)
    (mkIcm m (repeat false (length (v_labels g))) true 0 false).

(** One factor, lines 220-247.  factorOfVariable is read through the view (C12). *)
Definition scan_factor (fuel : nat) (c : icm) (f : nat) : outcome icm :=
  if ic_exit c then Ret c
  else
    fl <- rd (ic_flags c) f ;;
    ' (vis, _) <- rd (v_factors g) f ;;
    if fl || negb (1 <? length vis) then Ret c
    else
      old <- mapM (rd (mm_state (ic_mm c))) vis ;;
      let oldValue := mm_value (ic_mm c) in
      ' (m, newValue) <- moveOptimally T OP recompute ACC fuel g (ic_mm c) vis ;;
      if a_bop ACC newValue oldValue then
        if stop (ic_calls c) then Ret (mkIcm m (ic_flags c) true (S (ic_calls c)) true)
        else
          flags <- foldM (fun fl j =>
                     v <- rd vis j ;; o <- rd old j ;; s <- rd (mm_state m) v ;;
                     if o =? s then Ret fl
                     else foldM (fun fl ff => wr fl ff false) (v_adj T g v) fl)
                   (seq 0 (length vis)) (ic_flags c) ;;
          flags <- wr flags f true ;;
          Ret (mkIcm m flags true (S (ic_calls c)) false)
      else
        flags <- wr (ic_flags c) f true ;;
        Ret (mkIcm m flags (ic_upd c) (ic_calls c) false).

(** Lines 206-249. *)
Definition factor_phase (fuel : nat) (c : icm) : outcome icm :=
  sweeps fuel (fun c => foldM (scan_factor fuel) (seq 0 (length (v_factors g))) c)
    (mkIcm (ic_mm c) (repeat false (length (v_factors g))) true (ic_calls c) (ic_exit c)).

(** infer, lines 165-252; [factor]: moveType_ == FACTOR. *)
Definition icm_infer (fuel : nat) (factor : bool) (m : mm T) : outcome icm :=
  c <- single_phase fuel m ;;
  if factor then factor_phase fuel c else Ret c.

(** The constructor, lines 108-128, and the starting point. *)
Definition icm_new (startPoint : list nat) : outcome (mm T) :=
  m <- mm_new T OP g ;;
  if length startPoint =? length (v_labels g) then mm_initialize T OP g m startPoint
  else if negb (length startPoint =? 0) then Throw
  else Ret m.

(** reset, lines 130-143. *)
Definition icm_reset (startPoint : list nat) (m : mm T) : outcome (mm T) :=
  if length startPoint =? length (v_labels g) then mm_initialize T OP g m startPoint
  else if negb (length startPoint =? 0) then Throw
  else mm_reset T OP g m.

(** arg, lines 254-272: the labels are read one by one. *)
Definition icm_arg (c : icm) : outcome (list nat) := mapM (rd (mm_state (ic_mm c))) (seq 0 (length (v_labels g))).
End Icm.
Arguments mkIcm {T}. Arguments ic_mm {T}. Arguments ic_flags {T}. Arguments ic_upd {T}. Arguments ic_calls {T}. Arguments ic_exit {T}.

(** A client's calls on one ICM object: infer with some visitor, reset, setStartingPoint (lines 145-152). *)
Inductive icop : Type := IcInfer (stop : nat -> bool) | IcReset | IcSet (x : list nat).
Definition icstep {T : Type} (OP : oper T) (mult : bool) (recompute : T -> bool) (ACC : accum T) (fuel : nat) (g : gmv T)
  (factor : bool) (startPoint : list nat) (m : mm T) (o : icop) : outcome (mm T) :=
  match o with
  | IcInfer stop => c <- icm_infer T OP mult recompute ACC g stop fuel factor m ;; Ret (ic_mm c)
  | IcReset => icm_reset T OP g startPoint m
  | IcSet x => mm_initialize T OP g m x
  end.

