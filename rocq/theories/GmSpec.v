(** Reference semantics of histories of calls on graphical models: what a model is to its user
    (labels, functions, factors), without pointers, shared index vectors, adjacency lists or caches. *)
From Verif Require Import Base Values GmModel ShapeSpec.
From Coq Require Import Sorted.

Section GMSpec.
Variable T : Type.
Variable OP : oper T.
Variable feqb : func T -> func T -> bool.

(** A model: number of labels of each variable, the functions of each type, the factors (function
    index, function type, variables) in order, and whether the adjacency is up to date. *)
Record amodel : Type := mkA {
  am_labels : list nat; am_funs : list (list (func T));
  am_factors : list ((nat * nat) * list nat); am_final : bool }.
Definition world : Type := list (option amodel).

Definition am_function (m : amodel) (i t : nat) : option (func T) :=
  match nth_error (am_funs m) t with Some fs => nth_error fs i | None => None end.

(** A labeling restricted to a list of variables. *)
Definition restrict (x : list nat) (vis : list nat) : list nat := map (fun v => nth v x 0) vis.

(** The value of a model at a labeling: all factors, in order, combined with the operation. *)
Fixpoint combine_from (m : amodel) (x : list nat) (fs : list ((nat * nat) * list nat)) (acc : T) : option T :=
  match fs with
  | [] => Some acc
  | ((i, t), vis) :: r =>
      match am_function m i t with
      | Some f => combine_from m x r (o_op OP (f_call f (restrict x vis)) acc)
      | None => None
      end
  end.
Definition combine (m : amodel) (x : list nat) : option T := combine_from m x (am_factors m) (o_neutral OP).

(** The factors that contain a variable, in increasing order. *)
Definition adj_of (m : amodel) (v : nat) : list nat :=
  filter (fun k => match nth_error (am_factors m) k with
                   | Some (_, vis) => existsb (Nat.eqb v) vis | None => false end)
         (seq 0 (length (am_factors m))).

Definition max_order (m : amodel) : nat := list_max (map (fun fc => length (snd fc)) (am_factors m)).

(** Variables of a factor must be given in strictly increasing order and exist. *)
Definition valid_vis (m : amodel) (vis : list nat) : Prop :=
  StronglySorted lt vis /\ Forall (fun v => v < length (am_labels m)) vis.

Definition live (w : world) (a : nat) (m : amodel) : Prop := nth_error w a = Some (Some m).

(** First function of a list that compares equal. *)
Fixpoint first_equal (fs : list (func T)) (f : func T) : option nat :=
  match fs with
  | [] => None
  | g :: r => if feqb f g then Some 0 else option_map S (first_equal r f)
  end.

Definition with_fun (m : amodel) (t : nat) (fs : list (func T)) : amodel :=
  mkA (am_labels m) (upd (am_funs m) t fs) (am_factors m) (am_final m).

(** Effect of one call: the new world and the response, or nothing if the call is not allowed. *)
Definition lookup (w : world) (a : nat) : option amodel :=
  match nth_error w a with Some (Some m) => Some m | _ => None end.
Definition put (w : world) (a : nat) (m : amodel) : world := upd w a (Some m).

(** Functions of a model after assigning, type by type, those of a model with another type list. *)
Fixpoint merge_funs (tmap : list (option nat)) (src dst : list (list (func T))) : list (list (func T)) :=
  match tmap, src with
  | Some k :: tm, fs :: sr => merge_funs tm sr (upd dst k fs)
  | None :: tm, _ :: sr => merge_funs tm sr dst
  | _, _ => dst
  end.
Definition rename_type (tmap : list (option nat)) (fc : (nat * nat) * list nat) : (nat * nat) * list nat :=
  let '((i, t), vis) := fc in ((i, match nth_error tmap t with Some (Some k) => k | _ => t end), vis).

Definition astep (w : world) (o : gop T) : option (world * gresp) :=
  match o with
  | GNew _ NT space => Some (w ++ [Some (mkA space (repeat [] NT) [] true)], GIndex (length w))
  | GAddVariable _ a n =>
      match lookup w a with
      | Some m => Some (put w a (mkA (am_labels m ++ [n]) (am_funs m) (am_factors m) (am_final m)),
                        GIndex (length (am_labels m)))
      | None => None end
  | GAddFunction _ a t f =>
      match lookup w a with
      | Some m => match nth_error (am_funs m) t with
                  | Some fs => Some (put w a (with_fun m t (fs ++ [f])), GFid (length fs) t)
                  | None => None end
      | None => None end
  | GAddSharedFunction _ a t f =>
      match lookup w a with
      | Some m => match nth_error (am_funs m) t with
                  | Some fs => match first_equal fs f with
                               | Some i => Some (w, GFid i t)
                               | None => Some (put w a (with_fun m t (fs ++ [f])), GFid (length fs) t) end
                  | None => None end
      | None => None end
  | GSetFunction _ a i t f =>
      match lookup w a with
      | Some m => match nth_error (am_funs m) t with
                  | Some fs => Some (put w a (with_fun m t (upd fs i f)), GDone)
                  | None => None end
      | None => None end
  | GAddFactor _ a i t vis =>
      match lookup w a with
      | Some m => Some (put w a (mkA (am_labels m) (am_funs m) (am_factors m ++ [((i, t), vis)]) (am_final m)),
                        GIndex (length (am_factors m)))
      | None => None end
  | GAddFactorNonFinalized _ a i t vis =>
      match lookup w a with
      | Some m => Some (put w a (mkA (am_labels m) (am_funs m) (am_factors m ++ [((i, t), vis)]) false),
                        GIndex (length (am_factors m)))
      | None => None end
  | GFinalize _ a =>
      match lookup w a with
      | Some m => Some (put w a (mkA (am_labels m) (am_funs m) (am_factors m) true), GDone)
      | None => None end
  | GCopy _ a => match lookup w a with Some m => Some (w ++ [Some m], GIndex (length w)) | None => None end
  | GAssign _ a b =>
      match lookup w a, lookup w b with Some _, Some m => Some (put w a m, GDone) | _, _ => None end
  | GAssignSpace _ a space =>
      match lookup w a with
      | Some m => Some (put w a (mkA space (repeat [] (length (am_funs m))) [] true), GDone) | None => None end
  | GCrossAssign _ a b tmap =>
      match lookup w a, lookup w b with
      | Some m, Some m' =>
          Some (put w a (mkA (am_labels m') (merge_funs tmap (am_funs m') (am_funs m))
                             (map (rename_type tmap) (am_factors m')) (am_final m')), GDone)
      | _, _ => None end
  | GDestroy _ a => match lookup w a with Some _ => Some (upd w a None, GDone) | None => None end
  end.

(** A function can be used for a factor: it exists and takes as many labels as there are variables. *)
Definition usable (m : amodel) (i t n : nat) : Prop := exists f, am_function m i t = Some f /\ f_dim f = n.

(** Calls a client is allowed to make. *)
Definition legal (w : world) (o : gop T) : Prop :=
  match o with
  | GNew _ _ _ => True
  | GAddVariable _ a _ | GFinalize _ a | GCopy _ a | GAssignSpace _ a _ | GDestroy _ a => exists m, live w a m
  | GAddFunction _ a t _ | GAddSharedFunction _ a t _ => exists m, live w a m /\ t < length (am_funs m)
  | GSetFunction _ a i t f => exists m, live w a m /\ usable m i t (f_dim f)
  | GAddFactor _ a i t vis | GAddFactorNonFinalized _ a i t vis =>
      exists m, live w a m /\ usable m i t (length vis) /\ valid_vis m vis
  | GAssign _ a b => (exists m, live w a m) /\ (exists m, live w b m)
  | GCrossAssign _ a b tmap =>
      a <> b /\ exists m m', live w a m /\ live w b m' /\ length tmap = length (am_funs m') /\
      (* the target types exist and are different; every type in use has one *)
      (forall s k, nth_error tmap s = Some (Some k) -> k < length (am_funs m)) /\
      (forall s s' k, nth_error tmap s = Some (Some k) -> nth_error tmap s' = Some (Some k) -> s = s') /\
      (forall s, nth_error tmap s = Some None -> nth_error (am_funs m') s = Some [])
  end.

(** Legal histories with their final world and responses. *)
Inductive history : list (gop T) -> world -> list gresp -> Prop :=
| H_nil : history [] [] []
| H_snoc ops w rs o w' r : history ops w rs -> legal w o -> astep w o = Some (w', r) ->
    history (ops ++ [o]) w' (rs ++ [r]).

(** Calls that may change the model at an address. *)
Definition targets (o : gop T) : option nat :=
  match o with
  | GNew _ _ _ | GCopy _ _ => None
  | GAddVariable _ a _ | GAddFunction _ a _ _ | GAddSharedFunction _ a _ _ | GSetFunction _ a _ _ _
  | GAddFactor _ a _ _ _ | GAddFactorNonFinalized _ a _ _ _ | GFinalize _ a | GAssign _ a _
  | GAssignSpace _ a _ | GCrossAssign _ a _ _ | GDestroy _ a => Some a
  end.

(** What the queries of the model at address [a] must answer. *)
Definition presents (h : heap T) (a : nat) (m : amodel) : Prop :=
  exists g, deref T h a = Ret g /\
  numberOfVariables T g = length (am_labels m) /\
  (forall v n, nth_error (am_labels m) v = Some n -> numberOfLabels T g v = Ret n) /\
  numberOfFactors T g = length (am_factors m) /\
  factorOrder T g = max_order m /\
  (forall k i t vis, nth_error (am_factors m) k = Some ((i, t), vis) ->
     numberOfVariablesOf T g k = Ret (length vis) /\
     (forall j v, nth_error vis j = Some v -> variableOfFactor T h g k j = Ret v) /\
     exists fc f, rd (gm_factors g) k = Ret fc /\ am_function m i t = Some f /\
       fc_function T h fc = Ret f /\
       (forall j v n, nth_error vis j = Some v -> nth_error (am_labels m) v = Some n -> fc_numberOfLabels T h fc j = Ret n) /\
       fc_sizeof T h fc = Ret (size_of (map (fun v => nth v (am_labels m) 0) vis)) /\
       (forall l, length l = length vis -> fc_value T h fc l = Ret (f_call f l))).

Definition adjacency (h : heap T) (a : nat) (m : amodel) : Prop :=
  exists g, deref T h a = Ret g /\
  forall v, v < length (am_labels m) ->
    numberOfFactorsOf T g v = Ret (length (adj_of m v)) /\
    forall k f, nth_error (adj_of m v) k = Some f -> factorOfVariable T g v k = Ret f.
End GMSpec.
Arguments mkA {T}. Arguments am_labels {T}. Arguments am_funs {T}. Arguments am_factors {T}. Arguments am_final {T}.
