(** Specification for C43: what a saved and reloaded model has in common with the original. *)
From Coq Require Import Sorted.
From Verif Require Import Base ShapeSpec Values FunctionsModel FunctionsSpec FunctionsProps Hdf5Model.

Section Spec.
Variable T : Type.
Variable N : num T.

(** Function objects as constructors and insertions make them; the extents of tables are positive. *)
Definition obj_ok (k : kind) (o : fobj T) : Prop :=
  match k, o with
  | KExplicit, OExplicit f => explicit_made f /\ positive (ex_shape f)
  | KSparse, OSparse f => sparse_made f
  | KAbsolute, OFn1 f | KSquared, OFn1 f => True
  | KTruncAbsolute, OFn2 f | KTruncSquared, OFn2 f | KPotts, OFn2 f => True
  | KPottsN, OPottsN f => pottsn_made f
  | KConstant, OConstant f => const_made f
  | KStatic SIZE, OStatic f => length f = SIZE
  | _, _ => False
  end.
(** Function types with a serialization that is not empty. *)
Definition storable (k : kind) : Prop := match k with KStatic _ => False | _ => True end.

(** A legal operation: functions belong to their type; the variables of a factor are ascending and exist, its function exists
    and has the extents given by the label counts. *)
Definition legal (types : list kind) (m : hgm T) (o : hop T) : Prop :=
  match o with
  | HVariable n => True
  | HFunction t f => exists k, nth_error types t = Some k /\ obj_ok k f
  | HFactor i t vis => StronglySorted lt vis /\ Forall (fun v => v < length (h_space m)) vis /\
      exists k f, h_function types m (mkHf i t 0 0) = Ret (k, f) /\ has_shape (ops_of T N k) f (map (fun v => nth v (h_space m) 0) vis)
  end.
(** Models built by legal operations. *)
Inductive built (types : list kind) : hgm T -> Prop :=
| built_new : built types (h_new types)
| built_step : forall m o m', built types m -> legal types m o -> hstep m o = Ret m' -> built types m'.

(** Two functions of one type that no user can tell apart. *)
Definition same_function (k : kind) (f f' : fobj T) : Prop :=
  exists sh, has_shape (ops_of T N k) f sh /\ has_shape (ops_of T N k) f' sh /\ ft_size (ops_of T N k) f' = ft_size (ops_of T N k) f /\
    forall c, in_shape sh c -> exists v, ft_call (ops_of T N k) f c = Ret v /\ ft_call (ops_of T N k) f' c = Ret v.
(** The same label counts, and factor by factor the same variables and the same function, so also the same energy of every
    labeling under every operator. *)
Definition same_content (types : list kind) (m : hgm T) (types' : list kind) (m' : hgm T) : Prop :=
  h_space m' = h_space m /\ length (h_factors m') = length (h_factors m) /\
  (forall i fc, nth_error (h_factors m) i = Some fc -> exists fc' vis k f f', nth_error (h_factors m') i = Some fc' /\
     h_variables m fc = Ret vis /\ h_variables m' fc' = Ret vis /\ hc_size fc = length vis /\ hc_size fc' = length vis /\
     h_function types m fc = Ret (k, f) /\ h_function types' m' fc' = Ret (k, f') /\ hc_findex fc' = hc_findex fc /\ same_function k f f') /\
  (forall OP x, Forall2 lt x (h_space m) -> exists v, h_evaluate T N OP types m x = Ret v /\ h_evaluate T N OP types' m' x = Ret v).
(** The functions of every type, used or not; types only the new model has are empty. *)
Definition same_functions (types : list kind) (m : hgm T) (types' : list kind) (m' : hgm T) : Prop :=
  forall t' k, nth_error types' t' = Some k -> exists fs', nth_error (h_funs m') t' = Some fs' /\
    (~ In k types -> fs' = []) /\
    (forall t fs, nth_error types t = Some k -> nth_error (h_funs m) t = Some fs -> Forall2 (same_function k) fs fs').
End Spec.
